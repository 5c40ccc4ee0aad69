(** From import processing to the fragments and messages of a compilation. *)
From Verif Require Export ImportTerm.

Lemma parse_file_frag e contents path fd :
  parse_file e contents path = Ok (DFrag fd) <-> holds_fragment e contents fd.
Proof.
  unfold parse_file, holds_fragment. destruct (env_parse e contents) as [[|d [|d2 l]]|err]; split; intros H; inversion H; auto.
Qed.
Lemma parse_file_op e contents path op :
  parse_file e contents path = Ok (DOp op) <-> env_parse e contents = Ok [DOp op].
Proof.
  unfold parse_file. destruct (env_parse e contents) as [[|d [|d2 l]]|err]; split; intros H; inversion H; auto.
Qed.
Lemma open_unclosed contents : open_in (lines contents) <-> unclosed_import contents.
Proof.
  unfold open_in, unclosed_import, leading_line. split.
  - intros (k & l & A & B & U). exists k, l. auto.
  - intros (k & l & (A & B) & U). exists k, l. auto.
Qed.

Definition nonfrag_message (path : string) (loc : location) : message :=
  with_source (simple_message CompileError ("cannot import non-fragment GraphQL document `" +++ path +++ "`"))
    path (Some (loc_with_help loc (Some "This document is not a fragment, and importing it is probably a mistake."))).

(** One pass over a list of imported files *)
Lemma foreign_fold e path l : forall frags ms frags' ms',
  fold_left (foreign_step e path) l (frags, ms) = (frags', ms') ->
  (forall m, In m ms' <-> In m ms \/ exists k o loc, In (k, (o, loc)) l /\ holds_operation e o /\ m = nonfrag_message path loc) /\
  (forall n fd, aget n frags' = Some fd -> aget n frags = Some fd \/
     exists k o loc, In (k, (o, loc)) l /\ holds_fragment e o fd /\ fr_name fd = n) /\
  (forall n, aget n frags <> None -> aget n frags' <> None) /\
  (forall k o loc fd, In (k, (o, loc)) l -> holds_fragment e o fd -> aget (fr_name fd) frags' <> None).
Proof.
  induction l as [|[k [o loc]] l IH]; intros frags ms frags' ms' H; cbn [fold_left] in H.
  - inversion H; subst. split; [|split; [|split]]; auto.
    + intros m. split; auto. intros [I|(k & o & loc & [] & _)]; auto.
  - destruct (foreign_step e path (frags, ms) (k, (o, loc))) as [frags1 ms1] eqn:E.
    apply IH in H. destruct H as (A & B & C & D). cbn [foreign_step] in E.
    destruct (parse_file e o (raw k)) as [[op|fd0]|m0] eqn:Ep.
    + inversion E; subst frags1 ms1; clear E. pose proof Ep as Ep'. apply parse_file_op in Ep'.
      split; [|split; [|split]].
      * intros m. rewrite A, in_app_iff. cbn [In]. split.
        -- intros [[I|[<-|[]]]|(k1 & o1 & loc1 & I & X)]; auto.
           ++ right. exists k, o, loc. split; auto. split; [eexists; eauto|reflexivity].
           ++ right. exists k1, o1, loc1. auto.
        -- intros [I|(k1 & o1 & loc1 & [Q|I] & X & ->)]; auto.
           ++ inversion Q; subst. left. right. left. reflexivity.
           ++ right. exists k1, o1, loc1. auto.
      * intros n fd G. destruct (B n fd G) as [G'|(k1 & o1 & loc1 & I & X)]; auto.
        right. exists k1, o1, loc1. cbn. auto.
      * exact C.
      * intros k1 o1 loc1 fd [Q|I] Hf; [|eapply D; eauto]. inversion Q; subst.
        unfold holds_fragment in Hf. congruence.
    + inversion E; subst frags1 ms1; clear E. pose proof Ep as Ep'. apply parse_file_frag in Ep'.
      split; [|split; [|split]].
      * intros m. rewrite A. split.
        -- intros [I|(k1 & o1 & loc1 & I & X)]; auto. right. exists k1, o1, loc1. cbn. auto.
        -- intros [I|(k1 & o1 & loc1 & [Q|I] & [op X] & ->)]; auto.
           ++ inversion Q; subst. unfold holds_fragment in Ep'. congruence.
           ++ right. exists k1, o1, loc1. split; auto. split; auto. exists op. auto.
      * intros n fd G. destruct (B n fd G) as [G'|(k1 & o1 & loc1 & I & X)].
        -- rewrite aget_aset in G'. destruct (eqb n (fr_name fd0)) eqn:En; auto.
           inversion G'; subst. apply String.eqb_eq in En. right. exists k, o, loc. cbn. auto.
        -- right. exists k1, o1, loc1. cbn. auto.
      * intros n Hn. apply C. rewrite aget_aset. destruct (eqb n (fr_name fd0)); [discriminate|auto].
      * intros k1 o1 loc1 fd [Q|I] Hf; [|eapply D; eauto]. inversion Q; subst.
        assert (fd = fd0) by (unfold holds_fragment in *; congruence). subst.
        apply C. rewrite aget_aset_same. discriminate.
    + inversion E; subst frags1 ms1; clear E. split; [|split; [|split]].
      * intros m. rewrite A. split.
        -- intros [I|(k1 & o1 & loc1 & I & X)]; auto. right. exists k1, o1, loc1. cbn. auto.
        -- intros [I|(k1 & o1 & loc1 & [Q|I] & [op X] & ->)]; auto.
           ++ inversion Q; subst. apply (parse_file_op e o1 (raw k1)) in X. congruence.
           ++ right. exists k1, o1, loc1. split; auto. split; auto. exists op. auto.
      * intros n fd G. destruct (B n fd G) as [G'|(k1 & o1 & loc1 & I & X)]; auto.
        right. exists k1, o1, loc1. cbn. auto.
      * exact C.
      * intros k1 o1 loc1 fd [Q|I] Hf; [|eapply D; eauto]. inversion Q; subst.
        apply (parse_file_frag e o1 (raw k1)) in Hf. congruence.
Qed.

Section Stage.
Variables (fuel : nat) (e : env) (f : fs) (c : cconfig) (path contents : string).
Variables (im : imports) (ms : list message) (frags : amap string fragdef) (ms1 : list message).
Hypothesis Ord : order_ok (env_order e path).
Hypothesis Im : add_imports fuel e f c path contents [] [] = Done (im, ms).
Hypothesis Pf : parse_foreign e path im ms = (frags, ms1).

Lemma stage_missing m : In m ms <-> missing e f c path contents m.
Proof.
  destruct (add_imports_ok e f c fuel _ _ _ _ _ _ Im) as ((_ & _ & _ & D) & _). rewrite D. cbn [In]. split.
  - intros [[]|(F & n & l & t & err & (C & I & At) & R & ->)]. exists F, C, n, l, t, err. auto.
  - intros (F & C & n & l & t & err & I & At & R & ->). right. exists F, n, l, t, err. split; [|auto]. exists C. auto.
Qed.
Lemma edge_reach F n l t o : edge e f c path contents F n l t -> f (env_locate e t) = Ok o ->
  reach e f c path contents t o.
Proof.
  intros (C & [[-> ->]|R] & At) Ro; [eapply reach_one; eauto|eapply reach_more; eauto].
Qed.
Lemma reach_readable t o : reach e f c path contents t o -> f (env_locate e t) = Ok o.
Proof. intros R. destruct R; auto. Qed.
Lemma stage_entry k o loc : In (k, (o, loc)) im ->
  exists F n l t, edge e f c path contents F n l t /\ f (env_locate e t) = Ok o /\
    reach e f c path contents t o /\ path_eqb t (raw k) = true /\ loc = line_loc n l.
Proof.
  destruct (add_imports_ok e f c fuel _ _ _ _ _ _ Im) as ((A & _) & _). intros I.
  destruct (A _ _ I) as [[]|(F & n & l & t & o' & Ed & R & Pe & E)]. inversion E; subst.
  exists F, n, l, t. split; auto. split; auto. split; auto. eapply edge_reach; eauto.
Qed.
Lemma stage_found (Ag : paths_agree e f) t o : reach e f c path contents t o ->
  exists k loc, In (k, (o, loc)) im /\ path_eqb t (raw k) = true.
Proof.
  destruct (add_imports_ok e f c fuel _ _ _ _ _ _ Im) as ((A & B & _) & _). intros R.
  specialize (B _ _ R). destruct (aget (P t) im) as [[o' loc]|] eqn:E; [|congruence].
  apply aget_pin in E. destruct E as (k & I & Pe). exists k, loc. split; auto.
  destruct (stage_entry _ _ _ I) as (F & n & l & t' & _ & R' & _ & Pe' & _).
  assert (o' = o) as <-; auto. apply (Ag t' t); auto; [|apply reach_readable; auto].
  apply path_eqb_same. apply path_eqb_eq. apply path_eqb_eq in Pe, Pe'. congruence.
Qed.
Lemma perm_in x : In x (env_order e path [0; 0] _ im) <-> In x im.
Proof.
  pose proof (Ord [0; 0] _ im) as Pm. split; intros I.
  - eapply Permutation_in; [apply Permutation_sym; exact Pm|exact I].
  - eapply Permutation_in; [exact Pm|exact I].
Qed.
Lemma stage_frag_sound n fd : aget n frags = Some fd ->
  exists t o, reach e f c path contents t o /\ holds_fragment e o fd /\ fr_name fd = n.
Proof.
  intros H. destruct (foreign_fold e path _ _ _ _ _ Pf) as (_ & B & _).
  destruct (B n fd H) as [G|(k & o & loc & I & Hf & En)]; [discriminate|].
  apply perm_in in I. destruct (stage_entry _ _ _ I) as (F & n' & l & t & _ & _ & R & _). eauto 10.
Qed.
Lemma stage_frag_complete (Ag : paths_agree e f) t o fd : reach e f c path contents t o -> holds_fragment e o fd ->
  aget (fr_name fd) frags <> None.
Proof.
  intros R Hf. destruct (stage_found Ag _ _ R) as (k & loc & I & _). apply perm_in in I.
  destruct (foreign_fold e path _ _ _ _ _ Pf) as (_ & _ & _ & D). eapply D; eauto.
Qed.
Lemma stage_messages m : In m ms1 <-> In m ms \/
  exists k o loc, In (k, (o, loc)) im /\ holds_operation e o /\ m = nonfrag_message path loc.
Proof.
  destruct (foreign_fold e path _ _ _ _ _ Pf) as (A & _). rewrite A.
  split; (intros [I|(k & o & loc & I & X)]; [auto|]); right; exists k, o, loc; split; auto; apply perm_in; auto.
Qed.
Lemma stage_operation (Ag : paths_agree e f) t o : reach e f c path contents t o -> holds_operation e o ->
  exists F n l t', edge e f c path contents F n l t' /\ path_eqb t t' = true /\ In (operation_message path n l) ms1.
Proof.
  intros R Ho. destruct (stage_found Ag _ _ R) as (k & loc & I & Pe).
  destruct (stage_entry _ _ _ I) as (F & n & l & t' & Ed & _ & _ & Pe' & ->).
  exists F, n, l, t'. split; auto. split.
  - apply path_eqb_eq. apply path_eqb_eq in Pe, Pe'. congruence.
  - apply stage_messages. right. exists k, o, (line_loc n l). auto.
Qed.
Lemma stage_operation_sound m : In m ms1 -> ~ missing e f c path contents m ->
  exists F n l t o, edge e f c path contents F n l t /\ f (env_locate e t) = Ok o /\ holds_operation e o /\
    m = operation_message path n l.
Proof.
  intros I N. apply stage_messages in I. destruct I as [I|(k & o & loc & I & Ho & ->)].
  - apply stage_missing in I. contradiction.
  - destruct (stage_entry _ _ _ I) as (F & n & l & t & Ed & R & _ & _ & ->). exists F, n, l, t, o. auto.
Qed.
End Stage.

(** Messages of the import stage end up in the result of the compilation, unless writing fails *)
Lemma compile_file_done fuel e f c s path f' r :
  compile_file fuel e f c s path = Done (f', r) ->
  (exists m, r = Err [m] /\ ms_level m = CompileError /\
     (forall contents d, f (env_locate e path) = Ok contents -> parse_file e contents path <> Ok d)) \/
  exists contents d im ms frags ms1,
    f (env_locate e path) = Ok contents /\ parse_file e contents path = Ok d /\
    add_imports fuel e f c path contents [] [] = Done (im, ms) /\ parse_foreign e path im ms = (frags, ms1) /\
    ((exists err, r = Err [io_message "write" err (with_extension path "graphql.d.ts")]) \/
     (exists more, r = Err (ms1 ++ more)) \/
     (exists more g, r = Ok {| rp_messages := ms1 ++ more; rp_globals := g |})).
Proof.
  unfold compile_file, read_file.
  destruct (f (env_locate e path)) as [contents|err] eqn:E1.
  2: { intros H; inversion H; subst. left. eexists. split; [reflexivity|]. split; [reflexivity|]. discriminate. }
  destruct (parse_file e contents path) as [d|m] eqn:E2.
  2: { intros H; inversion H; subst. left. exists m. split; auto. split.
       - unfold parse_file in E2. destruct (env_parse e contents) as [[|d [|d2 l]]|er]; inversion E2; reflexivity.
       - intros contents0 d X. inversion X; subst. congruence. }
  destruct (add_imports fuel e f c path contents [] []) as [[im ms0]| |] eqn:E3; try discriminate.
  destruct (parse_foreign e path im ms0) as [frags ms1] eqn:E4.
  intros H. right. exists contents, d, im, ms0, frags, ms1.
  split; [auto|]. split; [auto|]. split; [auto|]. split; [auto|].
  destruct (compile_definition _ _ d) as [[ws [op|errs]]|] eqn:E5; try discriminate.
  2: { inversion H; subst. right. left. eauto. }
  destruct (compile_ir _ _ _ op) as [co|te] eqn:E6.
  2: { inversion H; subst. right. left. eexists. rewrite app_assoc. reflexivity. }
  destruct (write_file e f _ _) as [f2 [err|]] eqn:E7.
  - inversion H; subst. left. eauto.
  - inversion H; subst. right. right. eauto.
Qed.
Lemma compile_file_panics fuel e f c s path :
  compile_file fuel e f c s path = Panics <->
  exists contents d, f (env_locate e path) = Ok contents /\ parse_file e contents path = Ok d /\
    add_imports fuel e f c path contents [] [] = Panics.
Proof.
  unfold compile_file, read_file. split.
  - destruct (f (env_locate e path)) as [contents|err] eqn:E1; [|discriminate].
    destruct (parse_file e contents path) as [d|m] eqn:E2; [|discriminate].
    destruct (add_imports fuel e f c path contents [] []) as [[im ms0]| |] eqn:E3; try discriminate; [|eauto].
    destruct (parse_foreign e path im ms0) as [frags ms1].
    destruct (compile_definition _ _ d) as [[ws [op|errs]]|]; try discriminate.
    destruct (compile_ir _ _ _ op) as [co|te]; try discriminate.
    destruct (write_file e f _ _) as [f2 [err|]]; discriminate.
  - intros (contents & d & -> & -> & ->). reflexivity.
Qed.
