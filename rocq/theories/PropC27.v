(** C27: termination of the globals file. *)
From Verif Require Import InputFacts PropC24 Worlds Graphql ImportWorlds.

(** Producing the globals file terminates when no infinite chain of input objects starts at a requested
    type ... *)
Theorem C27_terminates_partial : forall s o c names, order_ok o -> inputs_consistent s ->
  (forall n, In n names -> global_type s n /\ wellfounded s n) ->
  exists N, forall k, N <= k -> compile_globals k c o s names <> None.
Proof.
  intros s o c names Ho C H. destruct (globals_ok s o c Ho C names H) as (N & HN). exists N.
  intros k L. destruct (HN k L) as (text & -> & _). discriminate.
Qed.
Print Assumptions C27_terminates_partial.

(** ... and only then *)
Theorem C27_exact : forall s o c names, order_ok o -> inputs_consistent s -> (forall n, In n names -> global_type s n) ->
  ((exists k, compile_globals k c o s names <> None) <-> forall n, In n names -> wellfounded s n).
Proof.
  intros s o c names Ho C H. split.
  - intros (k & E) n I. destruct (compile_globals k c o s names) as [r|] eqn:Ec; [|congruence].
    apply (globals_done s o c Ho C names k r H Ec). auto.
  - intros W. destruct (C27_terminates_partial s o c names Ho C) as (N & HN).
    { intros n I. auto. } exists N. apply HN. auto.
Qed.
Print Assumptions C27_exact.

(** A measure that decreases along references is enough *)
Theorem C27_ranked : forall s (rank : string -> nat), (forall n m, refers s n m -> rank m < rank n) ->
  forall n, wellfounded s n.
Proof.
  intros s rank D. assert (K : forall b n, rank n < b -> wellfounded s n).
  { induction b as [|b IH]; intros n L; [lia|]. constructor. intros m R. apply IH. specialize (D _ _ R). lia. }
  intros n. eapply K. apply Nat.lt_succ_diag_r.
Qed.
Print Assumptions C27_ranked.

(** The claim as stated fails: an input object with a field of its own type, as GraphQL allows *)
Definition loop_schema : schema :=
  match load_schema [input_type "A" [plain_field "a" (named_type "INPUT_OBJECT" "A")]] with Ok s => s | Err _ => [] end.
Lemma loop_consistent : inputs_consistent loop_schema.
Proof.
  intros n t nm fs G E. apply aget_In in G. cbn in G. destruct G as [G|[]]. inversion G; subst. cbn in E. inversion E; subst.
  split; auto. split; [repeat constructor; auto|]. intros fn f [I|[]]. inversion I; subst. cbn. repeat eexists.
Qed.
Lemma loop_not_wf : ~ wellfounded loop_schema "A".
Proof.
  intros W. assert (R : refers loop_schema "A" "A").
  { eexists. split; [reflexivity|]. do 4 eexists. split; [reflexivity|]. split; [left; reflexivity|]. split; [reflexivity|auto]. }
  revert R. induction W as [n _ IH]. intros R. exact (IH n R R).
Qed.
Theorem C27_refuted : exists s n, inputs_consistent s /\ global_type s n /\
  forall e f c root k, (forall p, order_ok (env_order e p)) -> compile_globals_file k e f c s root [n] = Diverges.
Proof.
  exists loop_schema, "A". split; [exact loop_consistent|].
  assert (G : global_type loop_schema "A") by (eexists; split; [reflexivity|exact I]).
  split; auto. intros e f c root k Ho. unfold compile_globals_file.
  rewrite (globals_diverge loop_schema (suborder (env_order e root) [1]) c) with (n := "A"); auto.
  - intros p A l. apply Ho.
  - exact loop_consistent.
  - intros n [<-|[]]. auto.
  - cbn. auto.
  - exact loop_not_wf.
Qed.
Print Assumptions C27_refuted.

(** Non-vacuity: see C24_nonvacuous for a well-founded request *)
Example C27_nonvacuous : forall n, In n ["A"] -> global_type input_schema n /\ wellfounded input_schema n.
Proof. intros n [<-|[]]. split; apply C24_nonvacuous. Qed.
