(** C31: imports are the transitive closure of the leading import lines. *)
From Verif Require Import ImportProps ImportWorlds.

(** A fragment is available under a name only if a reachable file holds it; every fragment held by a
    reachable file has its name available; if no other reachable file defines that name, it is the one
    available.  [paths_agree]: spellings of a path denote the same file. *)
Theorem C31_fragments : forall fuel e f c path contents im ms frags ms1,
  order_ok (env_order e path) -> paths_agree e f ->
  add_imports fuel e f c path contents [] [] = Done (im, ms) -> parse_foreign e path im ms = (frags, ms1) ->
  (forall n fd, aget n frags = Some fd ->
     exists t o, reach e f c path contents t o /\ holds_fragment e o fd /\ fr_name fd = n) /\
  (forall t o fd, reach e f c path contents t o -> holds_fragment e o fd ->
     exists fd', aget (fr_name fd) frags = Some fd' /\
       ((forall t' o' fd2, reach e f c path contents t' o' -> holds_fragment e o' fd2 -> fr_name fd2 = fr_name fd -> fd2 = fd) ->
        fd' = fd)).
Proof.
  intros fuel e f c path contents im ms frags ms1 Ord Ag Im Pf. split.
  - intros n fd. exact (stage_frag_sound _ _ _ _ _ _ _ _ _ _ Ord Im Pf n fd).
  - intros t o fd R Hf. pose proof (stage_frag_complete _ _ _ _ _ _ _ _ _ _ Ord Im Pf Ag _ _ _ R Hf) as N.
    destruct (aget (fr_name fd) frags) as [fd'|] eqn:E; [|congruence]. exists fd'. split; auto. intros U.
    destruct (stage_frag_sound _ _ _ _ _ _ _ _ _ _ Ord Im Pf _ _ E) as (t' & o' & R' & Hf' & En). eauto.
Qed.
Print Assumptions C31_fragments.

(** A missing file is reported at its import line, and nothing else is reported by this stage *)
Theorem C31_missing : forall fuel e f c path contents im ms,
  add_imports fuel e f c path contents [] [] = Done (im, ms) ->
  forall m, In m ms <-> missing e f c path contents m.
Proof. intros fuel e f c path contents im ms Im. exact (stage_missing _ _ _ _ _ _ _ _ Im). Qed.
Print Assumptions C31_missing.

(** The result exists for acyclic imports with closed import lines *)
Theorem C31_defined : forall e f c path contents,
  f (env_locate e path) = Ok contents -> acyclic e f c path ->
  (forall F C, importer e f c path contents F C -> ~ unclosed_import C) ->
  exists N r, forall fuel, N <= fuel -> add_imports fuel e f c path contents [] [] = Done r.
Proof.
  intros e f c path contents R A U. destruct (acyclic_terminates e f c path A contents R) as (N & HN).
  destruct (add_imports N e f c path contents [] []) as [r| |] eqn:E.
  - exists N, r. intros fuel L. rewrite <- E. apply add_imports_mono; [auto|congruence].
  - exfalso. apply add_imports_panics in E. destruct E as (F & C & I & O). apply (U F C I). apply open_unclosed. auto.
  - exfalso. exact (HN _ ltac:(auto) _ _ E).
Qed.
Print Assumptions C31_defined.

(** Non-vacuity: a imports b imports c; the fragment in c is found *)
Lemma plain_ok : order_ok plain_order.
Proof. intros p A l. apply Permutation_refl. Qed.
Lemma files_agree e l : (forall p, env_locate e p = p) ->
  (forall a x b y, In (a, x) l -> In (b, y) l -> path_eqb a b = true -> x = y) -> paths_agree e (files l).
Proof.
  intros Lo H a b x y E. apply path_eqb_same in E. rewrite !Lo. unfold files.
  destruct (aget a l) as [x'|] eqn:Ea; [|discriminate]. destruct (aget b l) as [y'|] eqn:Eb; [|discriminate].
  intros Q Q'. inversion Q; inversion Q'; subst. apply aget_In in Ea, Eb. eauto.
Qed.
Example C31_nonvacuous :
  order_ok (env_order letter_env "./a.graphql") /\ paths_agree letter_env (chain "S" "F" "F") /\
  exists im ms frags ms1,
    add_imports 5 letter_env (chain "S" "F" "F") tiny_config "./a.graphql" (import_line "b.graphql" +++ "S") [] [] = Done (im, ms) /\
    parse_foreign letter_env "./a.graphql" im ms = (frags, ms1) /\ List.length im = 2 /\
    aget "F" frags = Some tiny_fragment.
Proof.
  split; [exact plain_ok|]. split.
  - apply files_agree; [reflexivity|]. intros a x b y Ia Ib. cbn in Ia, Ib.
    destruct Ia as [Q|[Q|[Q|[]]]]; destruct Ib as [Q'|[Q'|[Q'|[]]]]; inversion Q; inversion Q'; subst;
      vm_compute; congruence.
  - do 4 eexists. split; [vm_compute; reflexivity|]. split; [vm_compute; reflexivity|]. split; reflexivity.
Qed.
