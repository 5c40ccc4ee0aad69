(** C30: import resolution. *)
From Verif Require Import ImportProps ImportWorlds.

(** The path of an import line (the text up to the last quote of the line) leads where [resolves]
    says: without the configured prefix from the root directory, else from the importing file's
    directory if it starts with a dot, else from the root directory; and nowhere else. *)
Theorem C30_resolution : forall c l q dir, names_import l q ->
  exists t, import_target c l dir = Some t /\ resolves c dir q t /\ forall t', resolves c dir q t' -> t' = t.
Proof.
  intros c l q dir N. destruct (target_spec c l q dir N) as (t & E & R). exists t. split; auto. split; auto.
  intros t' R'. destruct (resolves_fun c dir q) as (u & _ & U). rewrite (U _ R). apply U. auto.
Qed.
Print Assumptions C30_resolution.

(** Every target that is read while compiling a file comes from such a line *)
Theorem C30_used : forall fuel e f c path contents im ms k o loc,
  add_imports fuel e f c path contents [] [] = Done (im, ms) -> In (k, (o, loc)) im ->
  exists F C n l q t, importer e f c path contents F C /\ leading_line C n l /\ names_import l q /\
    resolves c (path_pop F) q t /\ same_path t (raw k) /\ f (env_locate e t) = Ok o.
Proof.
  intros fuel e f c path contents im ms k o loc H I.
  destruct (stage_entry _ _ _ _ _ _ _ _ H _ _ _ I) as (F & n & l & t & (C & Imp & q & L & Q & R) & Ro & _ & Pe & _).
  apply path_eqb_same in Pe. exists F, C, n, l, q, t. auto 10.
Qed.
Print Assumptions C30_used.

(** Every readable target is there, under one spelling: no two entries are spellings of one path *)
Definition apart (im : imports) : Prop := ForallOrdPairs (fun x y => ~ same_path (raw (fst x)) (raw (fst y))) im.
Lemma aset_apart k v im : apart im -> apart (aset (P k) v im).
Proof.
  induction 1 as [|[k1 v1] im F A IH]; cbn [aset]; [constructor; constructor|].
  unfold eqb, EqB_rpath. cbn [raw]. destruct (path_eqb k (raw k1)) eqn:E; (constructor; [|assumption]); cbn [fst] in *.
  - exact F.
  - rewrite Forall_forall in F. apply Forall_forall. intros [k2 v2] I. apply In_paset in I. destruct I as [I|[_ E2]]; [exact (F _ I)|]. cbn [fst] in *.
    intros S. apply path_eqb_same in E2. assert (X : path_eqb k (raw k1) = true); [|congruence]. apply path_eqb_same. eapply same_trans; [exact E2|]. apply same_sym. exact S.
Qed.
Lemma loop_apart rec e f c file : (forall F C im0 ms0 im ms, rec F C im0 ms0 = Done (im, ms) -> apart im0 -> apart im) ->
  forall ls n im0 ms0 im ms, imp_loop rec e f c file n ls im0 ms0 = Done (im, ms) -> apart im0 -> apart im.
Proof.
  intros Rec. induction ls as [|l ls IH]; intros n im0 ms0 im ms H A; cbn [imp_loop] in H; [injection H as <- _; exact A|].
  destruct (is_empty l || is_empty (trim l)); [eapply IH; eauto|]. destruct (negb (starts_with import_start l)).
  { destruct (starts_with "#" l); [eapply IH; eauto|]. injection H as <- _. exact A. }
  destruct (import_target c l (path_pop file)) as [t|]; [|discriminate H]. destruct (read_file e f t) as [o|m]; [|eapply IH; eauto].
  destruct (rec t o im0 ms0) as [[im1 ms1]| |] eqn:Er; try discriminate H. eapply IH; [exact H|]. apply aset_apart. eapply Rec; eauto.
Qed.
Lemma imports_apart fuel e f c : forall F C im0 ms0 im ms, add_imports fuel e f c F C im0 ms0 = Done (im, ms) -> apart im0 -> apart im.
Proof.
  induction fuel as [|k IH]; intros F C im0 ms0 im ms H A; [discriminate H|]. rewrite add_imports_S in H. eapply loop_apart; [|exact H|exact A]. exact IH.
Qed.
Theorem C30_once : forall fuel e f c path contents im ms, add_imports fuel e f c path contents [] [] = Done (im, ms) ->
  ForallOrdPairs (fun x y => ~ same_path (raw (fst x)) (raw (fst y))) im /\
  forall t o, reach e f c path contents t o -> exists k v, In (k, v) im /\ same_path t (raw k).
Proof.
  intros fuel e f c path contents im ms H. split; [exact (imports_apart fuel e f c _ _ _ _ _ _ H (FOP_nil _))|].
  intros t o R. destruct (add_imports_ok e f c fuel _ _ _ _ _ _ H) as ((_ & B & _) & _). specialize (B t o R).
  destruct (aget (P t) im) as [v|] eqn:E; [|congruence]. apply aget_pin in E. destruct E as (k & I & Pe). exists k, v. split; [exact I|]. apply path_eqb_same. exact Pe.
Qed.
Print Assumptions C30_once.
(** ./a.graphql imports ./b.graphql under three spellings: one entry, with the first spelling *)
Example C30_once_nonvacuous : exists im ms, add_imports 5 letter_env
    (files [("./b.graphql", "F"); ("././b.graphql", "F"); (".//b.graphql", "F")]) tiny_config "./a.graphql"
    (import_line "b.graphql" +++ import_line "./b.graphql" +++ import_line ".//b.graphql" +++ "S") [] [] = Done (im, ms) /\ List.map (fun x => raw (fst x)) im = ["./b.graphql"] /\
  same_path "./b.graphql" "././b.graphql" /\ same_path "./b.graphql" ".//b.graphql" /\ ~ same_path "./b.graphql" "b.graphql".
Proof.
  do 2 eexists. split; [vm_compute; reflexivity|]. split; [reflexivity|].
  split; [apply path_eqb_same; reflexivity|]. split; [apply path_eqb_same; reflexivity|]. intros X. apply path_eqb_same in X. discriminate X.
Qed.

(** In texts: what follows the configured prefix is under the root directory, a path that starts with a dot is relative to the
    directory of the file, and any other path is under the root directory; absolute paths stay as they are *)
Theorem C30_texts : forall c F contents n l q, leading_line contents n l -> names_import l q ->
  (forall r t, has_prefix c q r -> (forall x, r <> "/" +++ x) -> within_dir r (cc_root_dir c) t -> forall t', imports_at c F contents n l t' <-> t' = t) /\
  (forall r, has_prefix c q ("/" +++ r) -> forall t', imports_at c F contents n l t' <-> t' = "/" +++ r) /\
  ((forall r, ~ has_prefix c q r) ->
     (forall r t, q = "." +++ r -> beside q F t -> forall t', imports_at c F contents n l t' <-> t' = t) /\
     (forall t, (forall r, q <> "." +++ r) -> (forall x, q <> "/" +++ x) -> within_dir q (cc_root_dir c) t -> forall t', imports_at c F contents n l t' <-> t' = t) /\
     (forall r, q = "/" +++ r -> forall t', imports_at c F contents n l t' <-> t' = q)).
Proof.
  intros c F contents n l q L N.
  assert (One : forall t, resolves c (path_pop F) q t -> forall t', imports_at c F contents n l t' <-> t' = t).
  { intros t R t'. destruct (resolves_fun c (path_pop F) q) as (u & _ & U). split.
    - intros (q' & _ & N' & R'). assert (q' = q).
      { destruct N as (r1 & E1 & H1), N' as (r2 & E2 & H2). rewrite E1 in E2. apply sapp_inj_l in E2.
        assert (X1 : rfind quote (q +++ String quote r1) = Some (String.length q)) by (apply rfind_Some; exists q, r1; auto).
        assert (X2 : rfind quote (q +++ String quote r1) = Some (String.length q')) by (apply rfind_Some; exists q', r2; auto).
        rewrite X1 in X2. injection X2 as X2. rewrite <- (take_app q (String quote r1)), <- (take_app q' (String quote r2)), X2, E2. reflexivity. }
      subst q'. rewrite (U _ R), (U _ R'). reflexivity.
    - intros ->. exists q. auto. }
  split; [|split].
  - intros r t P A U. apply One. assert (E : path_join (cc_root_dir c) r = t) by (apply join_under; auto; apply absolute_spec; exact A).
    rewrite <- E. constructor. exact P.
  - intros r P. apply One. apply (resolves_prefix c (path_pop F) q ("/" +++ r) P).
  - intros Np. split; [|split].
    + intros r t E B. apply One. assert (A : is_absolute q = false) by (rewrite E; reflexivity). destruct (pop_beside q F t A B) as [Et _]. rewrite <- Et.
      apply (resolves_relative c (path_pop F) q r Np E).
    + intros t Nd A U. apply One. assert (E : path_join (cc_root_dir c) q = t) by (apply join_under; auto; apply absolute_spec; exact A).
      rewrite <- E. apply resolves_root; auto.
    + intros r E. apply One. assert (X : path_join (cc_root_dir c) q = q) by (rewrite E; reflexivity). rewrite <- X at 2. apply resolves_root; auto.
      intros r' E'. rewrite E in E'. discriminate E'.
Qed.
Print Assumptions C30_texts.

(** Non-vacuity: the three cases *)
Definition prefix_config : cconfig :=
  {| cc_root_dir := "app"; cc_deprecations := false; cc_readonly := true; cc_bottom := BottomAny;
     cc_import_prefix := Some "~/"; cc_globals_module := "g"; cc_docnode_module := "d" |}.
Example C30_nonvacuous :
  names_import (import_mark +++ "~/x.graphql" +++ String quote " // note") "~/x.graphql" /\
  import_target prefix_config (import_mark +++ "~/x.graphql" +++ String quote "") "app/d" = Some "app/x.graphql" /\
  import_target prefix_config (import_mark +++ "./x.graphql" +++ String quote "") "app/d" = Some "app/d/./x.graphql" /\
  import_target prefix_config (import_mark +++ "x.graphql" +++ String quote "") "app/d" = Some "app/x.graphql".
Proof.
  split; [|vm_compute; auto]. exists " // note". split; auto. vm_compute. intuition discriminate.
Qed.
Example C30_texts_nonvacuous : beside "./x.graphql" "app/d/a.graphql" "app/d/./x.graphql" /\ within_dir "x.graphql" "app" "app/x.graphql" /\
  beside "../x.graphql" "./a.graphql" "./../x.graphql".
Proof.
  split; [|split].
  - apply (beside_in "./x.graphql" "app/d" "a.graphql").
    + exists "app/", "d". split; [reflexivity|]. split; [discriminate|]. split; [cbn; intuition discriminate|right]. split; [discriminate|]. exists "app". reflexivity.
    + repeat split; try discriminate. cbn. intuition discriminate.
  - apply (within_in "x.graphql" "app"); [discriminate|]. intros a E. repeat (destruct a as [|? a]; [discriminate E|]; injection E as _ E). destruct a; discriminate E.
  - apply (beside_in "../x.graphql" "." "a.graphql").
    + exists "", ".". split; [reflexivity|]. split; [discriminate|]. split; [cbn; intuition discriminate|left; reflexivity].
    + repeat split; try discriminate. cbn. intuition discriminate.
Qed.
