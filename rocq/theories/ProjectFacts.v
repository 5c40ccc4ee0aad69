(** Valid sources compile, and what compiles is valid. *)
From Verif Require Export SpecProject EndFacts PropC05 PropC07 PropC23 FragExt.
From Verif Require Import PropC31.
From Verif Require PropC49.
From Coq Require Import Relation_Operators Transitive_Closure.

Scheme valid_sel_mind := Induction for valid_sel Sort Prop
  with valid_sels_mind := Induction for valid_sels Sort Prop.
Combined Scheme valid_mutind from valid_sel_mind, valid_sels_mind.

Lemma spreads_one x m : SpecDiag.spreads [x] m ->
  (exists p d, x = SSpread p m d) \/ (exists p al n a d sub, x = SField p al n a d sub /\ SpecDiag.spreads sub m) \/
  (exists p c d sub, x = SInline p c d sub /\ SpecDiag.spreads sub m).
Proof.
  intros S. inversion S as [? p n d I|? p al n a d sub ? I S1|? p c d sub ? I S1]; subst; cbn in I; destruct I as [->|[]]; eauto 10.
Qed.
Lemma spreads_cons x l m : SpecDiag.spreads (x :: l) m -> SpecDiag.spreads [x] m \/ SpecDiag.spreads l m.
Proof.
  intros S. inversion S as [? p n d I|? p al n a d sub ? I S1|? p c d sub ? I S1]; subst; destruct I as [->|I];
    [left; eapply spr_here; left; reflexivity|right; eapply spr_here; eauto
    |left; eapply spr_field; [left; reflexivity|auto]|right; eapply spr_field; eauto
    |left; eapply spr_inline; [left; reflexivity|auto]|right; eapply spr_inline; eauto].
Qed.
Lemma spreads_nil m : ~ SpecDiag.spreads [] m.
Proof. intros S. inversion S as [? ? ? ? I|? ? ? ? ? ? ? ? I|? ? ? ? ? ? I]; destruct I. Qed.

(** ** Valid selections *)
Lemma valid_frags s frags :
  (forall P x, valid_sel s frags P x -> frags_valid s frags [x]) /\
  (forall P l, valid_sels s frags P l -> frags_valid s frags l).
Proof.
  apply (valid_mutind s frags (fun P x _ => frags_valid s frags [x]) (fun P l _ => frags_valid s frags l)).
  - intros P p al n a d f F C m fd S _. apply spreads_one in S. destruct S as [(? & ? & E)|[(? & ? & ? & ? & ? & ? & E & S)|(? & ? & ? & ? & E & _)]]; try discriminate E.
    injection E as <- <- <- <- <- <-. destruct (spreads_nil _ S).
  - intros P p al n a d f sub F C N V IH m fd S A. apply spreads_one in S. destruct S as [(? & ? & E)|[(? & ? & ? & ? & ? & ? & E & S)|(? & ? & ? & ? & E & _)]]; try discriminate E.
    injection E as <- <- <- <- <- <-. apply (IH m fd S A).
  - intros P p c d sub C V IH m fd S A. apply spreads_one in S. destruct S as [(? & ? & E)|[(? & ? & ? & ? & ? & ? & E & _)|(? & ? & ? & ? & E & S)]]; try discriminate E.
    injection E as <- <- <- <-. apply (IH m fd S A).
  - intros P p name d fd A C V IH m fd' S A'. apply spreads_one in S. destruct S as [(? & ? & E)|[(? & ? & ? & ? & ? & ? & E & _)|(? & ? & ? & ? & E & _)]]; try discriminate E.
    injection E as <- <- <-. rewrite A in A'. injection A' as <-. split; auto.
  - intros P m fd S. destruct (spreads_nil _ S).
  - intros P x l V IH V' IH' m fd S A. apply spreads_cons in S. destruct S as [S|S]; [apply (IH m fd S A)|apply (IH' m fd S A)].
Qed.
(** Every fragment they spread is there and the spreads end *)
Lemma valid_acc s frags (R : string -> string -> Prop) :
  (forall b a, R b a -> forall fd, aget a frags = Some fd -> SpecDiag.spreads (fr_sels fd) b) ->
  (forall P x, valid_sel s frags P x -> forall m, SpecDiag.spreads [x] m -> Acc R m) /\
  (forall P l, valid_sels s frags P l -> forall m, SpecDiag.spreads l m -> Acc R m).
Proof.
  intros HR.
  apply (valid_mutind s frags (fun P x _ => forall m, SpecDiag.spreads [x] m -> Acc R m) (fun P l _ => forall m, SpecDiag.spreads l m -> Acc R m)).
  - intros P p al n a d f F C m S. apply spreads_one in S. destruct S as [(? & ? & E)|[(? & ? & ? & ? & ? & ? & E & S)|(? & ? & ? & ? & E & _)]]; try discriminate E.
    injection E as <- <- <- <- <- <-. destruct (spreads_nil _ S).
  - intros P p al n a d f sub F C N V IH m S. apply spreads_one in S. destruct S as [(? & ? & E)|[(? & ? & ? & ? & ? & ? & E & S)|(? & ? & ? & ? & E & _)]]; try discriminate E.
    injection E as <- <- <- <- <- <-. apply (IH m S).
  - intros P p c d sub C V IH m S. apply spreads_one in S. destruct S as [(? & ? & E)|[(? & ? & ? & ? & ? & ? & E & _)|(? & ? & ? & ? & E & S)]]; try discriminate E.
    injection E as <- <- <- <-. apply (IH m S).
  - intros P p name d fd A C V IH m S. apply spreads_one in S. destruct S as [(? & ? & E)|[(? & ? & ? & ? & ? & ? & E & _)|(? & ? & ? & ? & E & _)]]; try discriminate E.
    injection E as <- <- <-. constructor. intros b B. apply IH. exact (HR b name B fd A).
  - intros P m S. destruct (spreads_nil _ S).
  - intros P x l V IH V' IH' m S. apply spreads_cons in S. destruct S as [S|S]; [apply (IH m S)|apply (IH' m S)].
Qed.
(** More fragments do no harm *)
Lemma valid_more s frags frags' : (forall n fd, aget n frags = Some fd -> aget n frags' = Some fd) ->
  (forall P x, valid_sel s frags P x -> valid_sel s frags' P x) /\ (forall P l, valid_sels s frags P l -> valid_sels s frags' P l).
Proof.
  intros I. apply (valid_mutind s frags (fun P x _ => valid_sel s frags' P x) (fun P l _ => valid_sels s frags' P l)); intros; econstructor; eauto.
Qed.

(** ** Imports from another path to the same file *)
Section Paths.
Variables (e : env) (f : fs) (c : cconfig).
Hypothesis rel : relative_paths e.
Lemma imports_moved a b contents n ln t : env_locate e a = env_locate e b -> imports_at c a contents n ln t ->
  exists t', imports_at c b contents n ln t' /\ env_locate e t' = env_locate e t.
Proof.
  intros L (q & Ll & Ni & R). destruct R as [r Hp|r Np E|Np Nd].
  - exists (path_join (cc_root_dir c) r). split; [exists q; split; [auto|split; [auto|constructor; auto]]|reflexivity].
  - exists (path_join (path_pop b) q). split; [exists q; split; [auto|split; [auto|econstructor; eauto]]|]. apply rel. auto.
  - exists (path_join (cc_root_dir c) q). split; [exists q; split; [auto|split; [auto|apply resolves_root; auto]]|reflexivity].
Qed.
Lemma reach_moved a b contents t o : env_locate e a = env_locate e b -> reach e f c a contents t o ->
  exists t', reach e f c b contents t' o /\ env_locate e t' = env_locate e t.
Proof.
  intros L R. induction R as [n ln t o A Eo|mid mc n ln t o R (mid' & R' & Lm) A Eo].
  - destruct (imports_moved a b contents n ln t L A) as (t' & A' & L'). exists t'. split; [eapply reach_one; eauto; rewrite L'; auto|auto].
  - destruct (imports_moved mid mid' mc n ln t (eq_sym Lm) A) as (t' & A' & L'). exists t'. split; [eapply reach_more; eauto; rewrite L'; auto|auto].
Qed.
Lemma reach_trans a contents t o u p : reach e f c a contents t o -> reach e f c t o u p -> reach e f c a contents u p.
Proof.
  intros R R'. induction R' as [n ln u p A Eo|mid mc n ln u p R' IH A Eo]; [eapply reach_more; eauto|eapply reach_more; [exact IH|eauto|eauto]].
Qed.
(** Import steps between files *)
Definition file_step (y x : string) : Prop := exists a b, import_step e f c b a /\ x = env_locate e a /\ y = env_locate e b.
Lemma file_acc p : acyclic e f c p -> Acc file_step (env_locate e p).
Proof.
  intros A. induction A as [p _ IH]. constructor. intros y (a & b & (contents & n & ln & other & Ea & Ia & Eb) & Ex & ->).
  destruct (imports_moved a p contents n ln b (eq_sym Ex) Ia) as (b' & Ib & Lb). rewrite <- Lb. apply IH.
  exists contents, n, ln, other. rewrite Ex, Lb. auto.
Qed.
Lemma reach_below a contents t o : f (env_locate e a) = Ok contents -> reach e f c a contents t o -> clos_trans _ file_step (env_locate e t) (env_locate e a).
Proof.
  intros Ea R. induction R as [n ln t o A Eo|mid mc n ln t o R IH A Eo].
  - apply t_step. exists a, t. split; [exists contents, n, ln, o; auto|auto].
  - eapply t_trans; [|exact IH]. apply t_step. exists mid, t. split; [|auto]. exists mc, n, ln, o. split; [|auto]. eapply reach_readable; eauto.
Qed.
End Paths.

(** ** Enums and inputs *)
Lemma enum_global s x vs : option_map st_def (get_type s x) = Some (TEnum vs) -> global_type s x /\ wellfounded s x.
Proof.
  intros E. destruct (get_type s x) as [t|] eqn:G; [|discriminate]. cbn in E. injection E as E. split.
  - exists t. rewrite E. auto.
  - constructor. intros m (t' & G' & nm & fs & fn & fd & Ed & _). rewrite G in G'. injection G' as <-. rewrite E in Ed. discriminate.
Qed.
Lemma selected_enum s frags P M x : consistent s -> selected s frags P M x -> exists vs, option_map st_def (get_type s x) = Some (TEnum vs).
Proof.
  intros Co S. induction S as [P M T k f ss Po F E|P M T k f ss e Po F C S IH]; auto.
  destruct F as (P' & n & O & Fo). specialize (Co _ _ _ Fo). unfold kind_agrees in Co. rewrite E in Co. exact Co.
Qed.

(** ** Valid sources compile *)
Section Source.
Variables (e : env) (f : fs) (c : cconfig) (s : schema).
Hypothesis orders : forall p, order_ok (env_order e p).
Hypothesis agree : paths_agree e f.
Hypothesis cons : consistent s.
Hypothesis inh : inhabited_types s.
Hypothesis proper : proper_types s.
Hypothesis types : types_parse e.

Lemma valid_imports path contents d P l frags : valid_at e f c s path contents d P l frags ->
  exists N im frags', (forall k, N <= k -> add_imports k e f c path contents [] [] = Done (im, [])) /\
    parse_foreign e path im [] = (frags', []) /\ forall n, aget n frags' = aget n frags.
Proof.
  intros V. destruct (C31_defined e f c path contents (va_read _ _ _ _ _ _ _ _ _ _ V) (va_acyclic _ _ _ _ _ _ _ _ _ _ V) (va_quotes _ _ _ _ _ _ _ _ _ _ V)) as (N & [im ms] & H).
  destruct (parse_foreign e path im ms) as [frags' ms1] eqn:Pf. pose proof (H N (le_n _)) as Im.
  assert (No : forall m, ~ missing e f c path contents m).
  { intros m (F & C & n & ln & t & err & I & At & R & _). destruct (va_found _ _ _ _ _ _ _ _ _ _ V F C n ln t I At) as (o & Eo). rewrite R in Eo. discriminate Eo. }
  assert (Ms : ms = []).
  { destruct ms as [|m ms]; [reflexivity|]. exfalso. apply (No m). apply (stage_missing N e f c path contents im (m :: ms) Im m). left. reflexivity. }
  subst ms. assert (Ms1 : ms1 = []).
  { destruct ms1 as [|m ms1]; [reflexivity|]. exfalso.
    destruct (stage_operation_sound N e f c path contents im [] frags' (m :: ms1) (orders path) Im Pf m (or_introl eq_refl) (No m)) as (F & n & ln & t & o & Ed & Ro & Ho & _).
    apply (va_fragments _ _ _ _ _ _ _ _ _ _ V t o); auto. eapply edge_reach; eauto. }
  subst ms1. exists N, im, frags'. split; [exact H|]. split; [exact Pf|].
  exact (foreign_is N e f c path contents im [] frags' [] frags (orders path) agree Im Pf (va_brought _ _ _ _ _ _ _ _ _ _ V)).
Qed.

Lemma valid_file path : valid_source e f c s path -> env_write e (with_extension path "graphql.d.ts") = WOk ->
  exists N, forall k, N <= k -> exists f' r, compile_file k e f c s path = Done (f', Ok r) /\
    Forall (fun m => ms_level m = CompileWarning) (rp_messages r).
Proof.
  intros (contents & d & P & l & frags & V) W. destruct (valid_imports _ _ _ _ _ _ V) as (N & im & frags' & Im & Pf & Ext).
  destruct V as [Rd Pa _ _ _ _ _ Ro Qu Cp Po Se Va _].
  refine (C05_file e f c s path contents d N im frags' P l orders cons inh _ _ (Im N (le_n _)) Pf _ Qu Ro Po W).
  - unfold read_file. rewrite Rd. reflexivity.
  - apply parse_one. exact Pa.
  - constructor.
    + exists P, l. split; [exact Ro|]. split; [exact Cp|]. apply (valid_ext s frags frags' (fun n => eq_sym (Ext n))). exact Se.
    + apply Forall_forall. intros v I. split; [exact (types contents d v Pa I)|exact (Va v I)].
Qed.

(** What they use of the globals file are enums and input objects that end *)
Lemma valid_uses path k ms co n : valid_source e f c s path -> file_compiles k e f c s path ms co -> In n (co_globals co) ->
  global_type s n /\ wellfounded s n.
Proof.
  intros (contents & d & P & l & frags & V) (contents' & d' & im & ms0 & frags' & ms1 & ws & op & E1 & E2 & E3 & E4 & E5 & E6 & _) I.
  pose proof (va_read _ _ _ _ _ _ _ _ _ _ V) as R. rewrite E1 in R. injection R as ->.
  apply parse_one in E2. pose proof (va_parse _ _ _ _ _ _ _ _ _ _ V) as Pa. rewrite E2 in Pa. injection Pa as ->.
  pose proof (foreign_is k e f c path contents im ms0 frags' ms1 frags (orders path) agree E3 E4 (va_brought _ _ _ _ _ _ _ _ _ _ V)) as Ext.
  assert (Vs : valid_sels s frags' P l) by (apply (valid_ext s frags frags' (fun n => eq_sym (Ext n))); exact (va_sels _ _ _ _ _ _ _ _ _ _ V)).
  assert (Df : document_file k (file_ctx e c s path frags') c (suborder (env_order e path) [2; 0]) d ws co) by (exists op; split; assumption).
  destruct (C23_only k (file_ctx e c s path frags') c (suborder (env_order e path) [2; 0]) d ws co P l) as (m & _ & Hm & _ & _ & Pm);
    try exact cons; try exact proper; try exact Df; try exact (va_root _ _ _ _ _ _ _ _ _ _ V); try exact (va_query _ _ _ _ _ _ _ _ _ _ V).
  - intros q A x. apply orders.
  - intros q A x. apply orders.
  - exact (proj2 (valid_frags s frags') P l Vs).
  - apply Forall_forall. intros v Iv. exact (types contents d v E2 Iv).
  - apply (Permutation_in _ (Permutation_sym Pm)) in I. destruct (Hm n I) as [S|U].
    + destruct (selected_enum _ _ _ _ _ cons S) as (vs & Ev). exact (enum_global s n vs Ev).
    + exact (va_inputs _ _ _ _ _ _ _ _ _ _ V n U).
Qed.

Lemma valid_sound path : valid_source e f c s path -> sound_source e f c path.
Proof.
  intros (contents & d & P & l & frags & V) contents' d' E1 E2.
  rewrite (va_read _ _ _ _ _ _ _ _ _ _ V) in E1. injection E1 as <-. rewrite (va_parse _ _ _ _ _ _ _ _ _ _ V) in E2. injection E2 as <-. constructor.
  - exact (va_acyclic _ _ _ _ _ _ _ _ _ _ V).
  - exact (va_quotes _ _ _ _ _ _ _ _ _ _ V).
  - intros P' l' m Dr S. rewrite (va_root _ _ _ _ _ _ _ _ _ _ V) in Dr. injection Dr as <- <-.
    refine (proj2 (valid_acc s frags (spread_by e f c path contents) _) P l (va_sels _ _ _ _ _ _ _ _ _ _ V) m S).
    intros b a (fd & B & Sp) fd' A. apply (va_brought _ _ _ _ _ _ _ _ _ _ V) in B. rewrite B in A. injection A as <-. exact Sp.
Qed.

(** ** What compiles with nothing but warnings is valid, if all that it imports is compiled too *)
Section Converse.
Variables (ls : listing) (root : string) (k : nat).
Hypothesis unique : unique_fragments e ls f c root.
Hypothesis inside : imports_inside e ls f c root.
Hypothesis rel : relative_paths e.
Hypothesis queries : forall path contents d, is_source ls root path -> f (env_locate e path) = Ok contents -> env_parse e contents = Ok [d] -> is_subscription d = false.
Hypothesis compiles : forall path, is_source ls root path -> exists ms co, file_compiles k e f c s path ms co /\
  forall m, In m ms -> ms_level m = CompileWarning.
Hypothesis globals : forall path ms co n, is_source ls root path -> file_compiles k e f c s path ms co -> In n (co_globals co) ->
  global_type s n /\ wellfounded s n.

(** Everything but the selections *)
Lemma source_parts path : is_source ls root path -> exists contents d frags im ms0 ms1 ws op co P p l,
  f (env_locate e path) = Ok contents /\ env_parse e contents = Ok [d] /\
  add_imports k e f c path contents [] [] = Done (im, ms0) /\ parse_foreign e path im ms0 = (frags, ms1) /\
  (forall m, In m ms1 -> ms_level m = CompileWarning) /\
  (forall n fd, aget n frags = Some fd <-> brought e f c path contents n fd) /\
  compile_definition k (file_ctx e c s path frags) d = Some (ws, Ok op) /\
  compile_ir c (suborder (env_order e path) [2; 0]) s op = Ok co /\
  (forall n, In n (co_globals co) -> global_type s n /\ wellfounded s n) /\
  code_root d = Some (P, p, l) /\ doc_root d = Some (P, l) /\ is_subscription d = false /\ composite s P.
Proof.
  intros Sp. destruct (compiles path Sp) as (ms & co & Fc & Lv). pose proof Fc as Fc0.
  destruct Fc as (contents & d & im & ms0 & frags & ms1 & ws & op & E1 & E2 & E3 & E4 & E5 & E6 & ->). apply parse_one in E2.
  assert (Oc : order_ok (cx_order (file_ctx e c s path frags))) by (intros q A x; apply orders).
  pose proof (compile_result (file_ctx e c s path frags) Oc cons _ _ _ _ E5) as R.
  inversion R as [| | | |P0 p l0 ws0 op0 Rt C X Ev Sh En Ek]; subst.
  pose proof (queries path contents d Sp E1 E2) as Su.
  pose proof (code_root_doc d Su) as E. rewrite Rt in E. cbn in E.
  exists contents, d, frags, im, ms0, ms1, ws, op, co, P0, p, l0. repeat match goal with |- _ /\ _ => split end; auto.
  - intros m I. apply Lv. apply in_or_app. left. exact I.
  - intros n fd. split.
    + intros A. exact (stage_frag_sound k e f c path contents im ms0 frags ms1 (orders path) E3 E4 n fd A).
    + intros B. pose proof B as (t & o & Re & Hf & En0).
      pose proof (stage_frag_complete k e f c path contents im ms0 frags ms1 (orders path) E3 E4 agree t o fd Re Hf) as Ne.
      rewrite En0 in Ne. destruct (aget n frags) as [fd'|] eqn:A; [|congruence]. f_equal.
      apply (unique path contents n fd' fd Sp E1); [|exact B]. exact (stage_frag_sound k e f c path contents im ms0 frags ms1 (orders path) E3 E4 n fd' A).
  - intros n I. exact (globals path _ co n Sp Fc0 I).
Qed.

(** The selections, from the files that are imported on *)
Lemma source_sels x : Acc (file_step e f c) x -> forall path contents d frags P l, is_source ls root path -> env_locate e path = x ->
  f (env_locate e path) = Ok contents -> env_parse e contents = Ok [d] -> (forall n fd, aget n frags = Some fd <-> brought e f c path contents n fd) ->
  doc_root d = Some (P, l) -> composite s P /\ valid_sels s frags P l.
Proof.
  intros A. apply Acc_clos_trans in A. induction A as [x _ IH]. intros path contents d frags P l Sp Ex E1 E2 Br Dr.
  destruct (source_parts path Sp) as (contents' & d' & frags' & im & ms0 & ms1 & ws & op & co & P' & p & l' & E1' & E2' & E3 & E4 & _ & Br' & E5 & E6 & _ & Rt & Dr' & Su & Cp).
  rewrite E1 in E1'. injection E1' as <-. rewrite E2 in E2'. injection E2' as <-. rewrite Dr in Dr'. injection Dr' as <- <-.
  assert (Ext : forall n fd, aget n frags' = Some fd -> aget n frags = Some fd) by (intros n fd H; apply Br; apply Br'; exact H).
  split; [exact Cp|]. apply (valid_more s frags' frags Ext).
  assert (Oc : order_ok (cx_order (file_ctx e c s path frags'))) by (intros q A0 y; apply orders).
  refine (proj1 (document_collected k (file_ctx e c s path frags') d ws op P l Oc cons E5 Dr Su _)).
  cbn [file_ctx cx_schema cx_frags]. intros n fd _ Af. apply Br' in Af. destruct Af as (t & o & Re & Hf & _).
  destruct (inside path contents t o Sp E1 Re) as (q & Sq & Lq). pose proof (reach_readable e f c path contents t o Re) as Et.
  assert (Eq : f (env_locate e q) = Ok o) by (rewrite Lq; exact Et).
  destruct (source_parts q Sq) as (o' & dq & fragsq & _ & _ & _ & _ & _ & _ & _ & _ & _ & Eq' & Pq & _ & _ & _ & Brq & _).
  rewrite Eq in Eq'. injection Eq' as <-.
  destruct (IH (env_locate e t)) with (path := q) (contents := o) (d := DFrag fd) (frags := fragsq) (P := fr_cond fd) (l := fr_sels fd) as [Cq Vq]; auto.
  { rewrite <- Ex. eapply reach_below; eauto. }
  split; [exact Cq|]. refine (proj2 (valid_more s fragsq frags' _) _ _ Vq).
  intros m fm Am. apply Brq in Am. destruct Am as (u & ou & Ru & Hu & Em). apply Br'.
  destruct (reach_moved e f c rel q t o u ou Lq Ru) as (u' & Ru' & _). exists u', ou. split; [|auto]. eapply reach_trans; eauto.
Qed.

Lemma source_valid path : is_source ls root path -> valid_source e f c s path.
Proof.
  intros Sp. destruct (source_parts path Sp) as (contents & d & frags & im & ms0 & ms1 & ws & op & co & P & p & l & E1 & E2 & E3 & E4 & Lv & Br & E5 & E6 & Gl & Rt & Dr & Su & Cp).
  assert (Ac : acyclic e f c path) by (eapply done_acyclic; eauto).
  destruct (source_sels _ (file_acc e f c rel path Ac) path contents d frags P l Sp eq_refl E1 E2 Br Dr) as [_ Vs].
  assert (Oc : order_ok (cx_order (file_ctx e c s path frags))) by (intros q A y; apply orders).
  assert (Oo : order_ok (suborder (env_order e path) [2; 0])) by (intros q A y; apply orders).
  assert (Df : document_file k (file_ctx e c s path frags) c (suborder (env_order e path) [2; 0]) d ws co) by (exists op; split; assumption).
  assert (Vt : Forall (fun v => valid_gtype (vgtype v) = true) (doc_vars d)) by (apply Forall_forall; intros v I; exact (types contents d v E2 I)).
  destruct (document_described k (file_ctx e c s path frags) c (suborder (env_order e path) [2; 0]) d ws co P l Oc Oo cons proper Df Dr Su (proj2 (valid_frags s frags) P l Vs))
    as (op' & ds & us & vds & vus & E5' & _ & _ & _ & _ & _ & Ev & Rn & Rv & Eg & _).
  rewrite E5 in E5'. injection E5' as <-. cbn [file_ctx cx_schema] in Ev, Rv.
  exists contents, d, P, l, frags. constructor; auto.
  - intros F C I O. apply (add_imports_ok e f c k) in E3. destruct E3 as (_ & No). apply (No F C I). apply open_unclosed. exact O.
  - intros F C n ln t I At. destruct (f (env_locate e t)) as [o|err] eqn:Et; [eauto|]. exfalso.
    assert (M : In (missing_message F n ln t err) ms1).
    { apply (stage_messages e path im ms0 frags ms1 (orders path) E4). left. apply (stage_missing k e f c path contents im ms0 E3). exists F, C, n, ln, t, err. auto. }
    specialize (Lv _ M). discriminate Lv.
  - intros t o Re Ho. destruct (stage_operation k e f c path contents im ms0 frags ms1 (orders path) E3 E4 agree t o Re Ho) as (F & n & ln & t' & _ & _ & M).
    specialize (Lv _ M). discriminate Lv.
  - (* some object type *)
    pose proof (compile_result (file_ctx e c s path frags) Oc cons _ _ _ _ E5) as R.
    inversion R as [| | | |P0 p0 l0 ws0 op0 Rt0 C0 X0 Ev0 Sh En Ek]; subst. rewrite Rt in Rt0. injection Rt0 as <- <- <-.
    inversion Sh as [P1 xs0 So Nd Po Fs]; subst. destruct (op_collection op) as [|[T fs] xs] eqn:Ecol.
    + exfalso. inversion Rn as [xs0 main ds0 us0 Ne Ow Pl|xs0 main ds0 us0 Ne Pl]; subst; apply Ne; reflexivity.
    + exists T. apply Po. left. reflexivity.
  - intros v I. destruct (good_dec s v) as [G|B]; [exact G|]. exfalso.
    destruct (vars_rejected s (doc_vars d) Vt) as (pre & d0 & suf & er & _ & _ & _ & Er & _).
    + intros Fa. rewrite Forall_forall in Fa. apply B. apply Fa. exact I.
    + rewrite Er in Ev. discriminate Ev.
  - intros x U. apply Gl. rewrite Eg. apply In_sunion. right. apply in_or_app. right. apply (var_uses c s d op vds vus Vt Ev Rv x). exact U.
Qed.
End Converse.
End Source.
