(** Lemmas for a run after another. *)
From Verif Require Import RunFacts PoolProps.
From Verif Require Export SpecAgain.
From Coq Require Import Lia.

(** ** The tree *)
Lemma readable_app es es' : readable (es ++ es') = match readable es, readable es' with Some l, Some l' => Some (l ++ l') | _, _ => None end.
Proof.
  induction es as [|[d|m] es IH]; cbn [app readable]; auto.
  - destruct (readable es'); reflexivity.
  - rewrite IH. destruct (de_kind d); auto. destruct (readable es), (readable es'); reflexivity.
Qed.
Lemma readable_perm es es' : Permutation es es' ->
  match readable es, readable es' with Some l, Some l' => Permutation l l' | None, None => True | _, _ => False end.
Proof.
  induction 1 as [|x es es' P IH|x y es|a b d P1 IH1 P2 IH2]; cbn [readable]; auto.
  - destruct x as [d|m]; auto. destruct (de_kind d); auto. destruct (readable es), (readable es'); auto.
  - destruct x as [d|m], y as [d'|m']; auto; try (destruct (de_kind d'); auto; fail); try (destruct (de_kind d); auto; fail);
      destruct (de_kind d); auto; destruct (de_kind d'); auto; destruct (readable es); auto. constructor.
  - destruct (readable a), (readable b), (readable d); try tauto. etransitivity; eauto.
Qed.
Lemma readable_new new : Forall new_entry new -> exists l, readable (List.map Ok new) = Some l /\
  forall dir, flat_map (entry_work dir) l = [].
Proof.
  induction 1 as [|x new (K & N & S) F (l & E & H)]; [exists []; auto|]. cbn [List.map readable]. rewrite K, E.
  eexists. split; [reflexivity|]. intros dir. cbn [flat_map]. rewrite H, app_nil_r.
  unfold entry_work. cbn [fst snd]. destruct (path_extension (path_join dir (de_name x))) as [ext|] eqn:Ex; auto.
  destruct (String.eqb_spec ext "graphql") as [->|]; auto. exfalso. apply S.
  apply (extension_graphql _ _ _ N (join_ends dir (de_name x) N)). exact Ex.
Qed.

Section Again.
Variables (ls ls' : listing).
Hypothesis rel : relisted ls ls'.

Lemma kids_again x : Permutation (dir_kids ls' x) (dir_kids ls x).
Proof.
  destruct x as [p|d]; cbn [dir_kids]; auto. specialize (rel d).
  destruct (ls d) as [es|m], (ls' d) as [es'|m']; try contradiction; auto.
  destruct rel as (new & P & F). apply readable_perm in P. rewrite readable_app in P.
  destruct (readable_new new F) as (l & E & H). rewrite E in P.
  destruct (readable es') as [k'|], (readable es) as [k|]; try contradiction; auto.
  rewrite (Permutation_flat (entry_work d) _ _ P), flat_map_app, H, app_nil_r. auto.
Qed.
Lemma scan_again d : match run_dir_entry ls d, run_dir_entry ls' d with Ok _, Ok _ => True | Err _, Err _ => True | _, _ => False end.
Proof.
  unfold run_dir_entry. specialize (rel d). destruct (ls d) as [es|m], (ls' d) as [es'|m']; try contradiction; auto.
  destruct rel as (new & P & F). apply readable_perm in P. rewrite readable_app in P. destruct (readable_new new F) as (l & E & _). rewrite E in P.
  pose proof (scan_readable d es []) as A. pose proof (scan_readable d es' []) as B.
  destruct (scan_entries d es []), (scan_entries d es' []); auto.
  - destruct A as (k & A & _). rewrite A, B in P. exact P.
  - destruct B as (k & B & _). rewrite A, B in P. exact P.
Qed.

Lemma scan_fails d es acc why : scan_entries d es acc = Err why -> In (Err why) es \/ exists n, In (Ok {| de_name := n; de_kind := Err why |}) es.
Proof.
  revert acc. induction es as [|[x|e] es IH]; intros acc H; [discriminate| |].
  - cbn [scan_entries] in H. destruct x as [n [[| |]|e]]; cbn [de_name de_kind] in H.
    + destruct (IH _ H) as [I|[k I]]; [left; right; exact I|right; exists k; right; exact I].
    + destruct (path_extension (path_join d n)) as [ext|]; [destruct (String.eqb ext "graphql")|];
        (destruct (IH _ H) as [I|[k I]]; [left; right; exact I|right; exists k; right; exact I]).
    + destruct (IH _ H) as [I|[k I]]; [left; right; exact I|right; exists k; right; exact I].
    + injection H as ->. right. exists n. left. reflexivity.
  - cbn [scan_entries] in H. injection H as ->. left. left. reflexivity.
Qed.
Lemma fails_again d why why' : run_dir_entry ls d = Err why -> run_dir_entry ls' d = Err why' -> why' = why \/ (entry_fails ls d why /\ entry_fails ls d why').
Proof.
  unfold run_dir_entry, entry_fails. specialize (rel d). destruct (ls d) as [es|m], (ls' d) as [es'|m']; try contradiction.
  - destruct rel as (new & P & F). intros H H'. apply scan_fails in H, H'. right. split; [exists es; auto|]. exists es. split; auto.
    assert (K : forall y, In y es' -> In y es \/ exists x, y = Ok x /\ new_entry x).
    { intros y I. apply (Permutation_in _ P) in I. apply in_app_or in I. destruct I as [I|I]; auto. right. apply in_map_iff in I. destruct I as (x & <- & I).
      exists x. split; auto. rewrite Forall_forall in F. auto. }
    destruct H' as [I|[n I]].
    + destruct (K _ I) as [X|(x & X & _)]; [auto|discriminate].
    + destruct (K _ I) as [X|(x & X & Nw & _)]; [right; exists n; exact X|]. injection X as <-. discriminate Nw.
  - intros [= <-] [= <-]. left. symmetry. exact rel.
Qed.

Variable root : string.
Lemma tree_again x : (exists p, in_tree ls root p x) -> exists p, in_tree ls' root p x.
Proof.
  intros [p H]. induction H as [|p x i y H IH E]; [exists []; constructor|]. destruct IH as [q Hq].
  apply nth_error_In in E. apply (Permutation_in _ (Permutation_sym (kids_again x))) in E. apply In_nth_error in E. destruct E as [j E].
  exists (q ++ [j]). eapply node_child; eauto.
Qed.
Lemma tree_before x : (exists p, in_tree ls' root p x) -> exists p, in_tree ls root p x.
Proof.
  intros [p H]. induction H as [|p x i y H IH E]; [exists []; constructor|]. destruct IH as [q Hq].
  apply nth_error_In in E. apply (Permutation_in _ (kids_again x)) in E. apply In_nth_error in E. destruct E as [j E].
  exists (q ++ [j]). eapply node_child; eauto.
Qed.
Lemma source_again path : is_source ls' root path <-> is_source ls root path.
Proof. split; [apply tree_before|apply tree_again]. Qed.
Lemma flat_again : flat_tree ls root -> flat_tree ls' root.
Proof.
  intros Fl x I. apply (Permutation_in _ (kids_again _)) in I. pose proof (kids_again x) as P. rewrite (Fl x I) in P.
  apply Permutation_sym, Permutation_nil in P. exact P.
Qed.
End Again.

Lemma every_once_nodup ls root xs : names_ok ls -> every_once ls root xs -> NoDup xs.
Proof.
  intros N (ps & Nd & F & _). revert Nd. induction F as [|p x ps xs H F IH]; intros Nd; [constructor|].
  inversion Nd; subst. constructor; auto. intros I. destruct (Forall2_in_r _ _ _ _ F I) as (q & Iq & Hq).
  rewrite (tree_paths ls root N p q x x H Hq eq_refl) in H2. contradiction.
Qed.
Lemma every_once_item ls root xs x : every_once ls root xs -> (In x xs <-> exists p, in_tree ls root p x).
Proof.
  intros (ps & N & F & A). split.
  - intros I. destruct (Forall2_in_r _ _ _ _ F I) as (p & _ & Hp). exists p. auto.
  - intros [p Hp]. destruct (Forall2_in_l _ _ _ _ F (A _ _ Hp)) as (y & Iy & Hy).
    rewrite (tree_fun ls root p _ _ Hp Hy). auto.
Qed.
Lemma completed_again ls ls' root xs ys : relisted ls ls' -> names_ok ls -> names_ok ls' ->
  every_once ls root xs -> every_once ls' root ys -> Permutation xs ys.
Proof.
  intros R N N' E E'. apply NoDup_Permutation; [exact (every_once_nodup _ _ _ N E)|exact (every_once_nodup _ _ _ N' E')|].
  intros x. rewrite (every_once_item _ _ _ _ E), (every_once_item _ _ _ _ E'). split; [apply tree_again; auto|apply tree_before; auto].
Qed.

(** ** What is read *)
Lemma reach_agree e f g c path contents : f (env_locate e path) = Ok contents -> (forall l, reads e f c path l -> g l = f l) ->
  forall t o, reach e g c path contents t o -> reach e f c path contents t o.
Proof.
  intros Ec H t o R. induction R as [n l t o A E|mid mc n l t o R IH A E].
  - eapply reach_one; eauto. rewrite <- H; auto. eapply reads_import; eauto. left. auto.
  - eapply reach_more; eauto. rewrite <- H; auto. eapply reads_import; eauto. right. auto.
Qed.
Lemma reads_agree e f g c path : (forall l, reads e f c path l -> g l = f l) -> forall l, reads e g c path l -> reads e f c path l.
Proof.
  intros H l R. destruct R as [|contents file' contents' n l t E I A]; [constructor|].
  rewrite H in E by constructor. eapply reads_import; eauto. destruct I as [I|I]; [left; exact I|]. right. eapply reach_agree; eauto.
Qed.
Lemma separate_again e ls ls' c root f g : relisted ls ls' -> separate e ls c root f -> same_reads e ls c root f g -> separate e ls' c root g.
Proof.
  intros R [S1 S2] Sr. split.
  - intros x y l Hx Hy Rd. apply (source_again _ _ R) in Hx. apply (source_again _ _ R) in Hy. apply (S1 x y); auto.
    apply (reads_agree e f g c x); [|exact Rd]. intros l' Rl. apply (Sr x); auto.
  - intros x y Hx Hy. apply (source_again _ _ R) in Hx. apply (source_again _ _ R) in Hy. auto.
Qed.

(** ** Two runs *)
Section Two.
Variables (fuel : nat) (e : env) (ls ls' : listing) (c : cconfig) (s : schema) (root : string) (f g : fs).
Hypothesis names : names_ok ls.
Hypothesis names' : names_ok ls'.
Hypothesis rel : relisted ls ls'.
Hypothesis sep : separate e ls c root f.
Hypothesis same : same_reads e ls c root f g.
Notation final n sched := (steps (run_work fuel e ls c s) n (start n (WDir root) f) sched).
Notation again n sched := (steps (run_work fuel e ls' c s) n (start n (WDir root) g) sched).

Definition has_error (r : report) : Prop := exists m, In m (rp_messages r) /\ is_error_level (ms_level m).
Lemma item_again x : (exists p, in_tree ls root p x) ->
  let r := item_report fuel e ls c s f x in let r' := item_report fuel e ls' c s g x in
  r' = r \/ (has_error r /\ has_error r' /\ rp_globals r = [] /\ rp_globals r' = []).
Proof.
  intros T. cbn zeta. unfold item_report. destruct x as [path|d]; cbn [run_work].
  - left. assert (A : forall l, reads e f c path l -> g l = f l) by (intros l R; eapply same; eauto).
    pose proof (compile_agree e f g c fuel s path A) as C. unfold same_result in C.
    destruct (compile_file fuel e f c s path) as [[f' r]| |].
    + destruct C as (g' & -> & _). destruct r; reflexivity.
    + rewrite C. reflexivity.
    + rewrite C. reflexivity.
  - pose proof (scan_again ls ls' rel d) as S. destruct (run_dir_entry ls d), (run_dir_entry ls' d); try contradiction; [left; reflexivity|].
    right. split; [|split; [|split; reflexivity]]; (eexists; split; [left; reflexivity|left; reflexivity]).
Qed.

Section Ends.
Variables (n n' : nat) (sched sched' : list nat).
Hypothesis ev : every_once ls root (completed (final n sched)).
Hypothesis ev' : every_once ls' root (completed (again n' sched')).
Notation st := (final n sched).
Notation st' := (again n' sched').

Lemma log_again : pool_log st' = List.map (fun x => (x, dir_kids ls' x, item_report fuel e ls' c s g x)) (completed st').
Proof. apply log_results; auto. eapply separate_again; eauto. Qed.
Lemma globals_again x : In x (rp_globals (aggregate st)) <-> In x (rp_globals (aggregate st')).
Proof.
  rewrite !aggregate_globals, log_again, (log_results fuel e ls c s root f names sep). pose proof (completed_again _ _ _ _ _ rel names names' ev ev') as P.
  split; intros (y & I & H); apply in_map_iff in I; destruct I as (w & <- & I); cbn [snd] in H.
  - assert (T : exists p, in_tree ls root p w) by (apply (every_once_item _ _ _ _ ev); exact I).
    exists (w, dir_kids ls' w, item_report fuel e ls' c s g w). split; [apply in_map_iff; exists w; split; auto; apply (Permutation_in _ P I)|]. cbn [snd].
    destruct (item_again w T) as [->|(_ & _ & E & _)]; auto. rewrite E in H. destruct H.
  - apply (Permutation_in _ (Permutation_sym P)) in I. assert (T : exists p, in_tree ls root p w) by (apply (every_once_item _ _ _ _ ev); exact I).
    exists (w, dir_kids ls w, item_report fuel e ls c s f w). split; [apply in_map_iff; exists w; split; auto|]. cbn [snd].
    destruct (item_again w T) as [<-|(_ & _ & _ & E)]; auto. rewrite E in H. destruct H.
Qed.
Lemma errors_again : has_error (aggregate st) <-> has_error (aggregate st').
Proof.
  unfold has_error. rewrite !aggregate_messages, log_again, (log_results fuel e ls c s root f names sep).
  pose proof (completed_again _ _ _ _ _ rel names names' ev ev') as P.
  split; intros (m & I & L); apply in_flat_map in I; destruct I as (y & I & H); apply in_map_iff in I; destruct I as (w & <- & I); cbn [snd] in H.
  - assert (T : exists p, in_tree ls root p w) by (apply (every_once_item _ _ _ _ ev); exact I).
    assert (X : has_error (item_report fuel e ls' c s g w)).
    { destruct (item_again w T) as [->|(_ & X & _)]; auto. exists m. auto. }
    destruct X as (m' & I' & L'). exists m'. split; auto. apply in_flat_map. eexists. split; [apply in_map_iff; exists w; split; [reflexivity|apply (Permutation_in _ P I)]|exact I'].
  - apply (Permutation_in _ (Permutation_sym P)) in I. assert (T : exists p, in_tree ls root p w) by (apply (every_once_item _ _ _ _ ev); exact I).
    assert (X : has_error (item_report fuel e ls c s f w)).
    { destruct (item_again w T) as [<-|(X & _)]; auto. exists m. auto. }
    destruct X as (m' & I' & L'). exists m'. split; auto. apply in_flat_map. eexists. split; [apply in_map_iff; exists w; split; [reflexivity|exact I]|exact I'].
Qed.
Lemma messages_again : ~ has_error (aggregate st) -> Permutation (rp_messages (aggregate st)) (rp_messages (aggregate st')).
Proof.
  intros Ne. rewrite !aggregate_messages, log_again, (log_results fuel e ls c s root f names sep), !flat_map_concat_map, !map_map, <- !flat_map_concat_map.
  pose proof (completed_again _ _ _ _ _ rel names names' ev ev') as P. cbn [snd].
  rewrite <- (Permutation_flat _ _ _ P). rewrite !flat_map_concat_map. erewrite map_ext_in; [apply Permutation_refl|].
  intros w I. cbn beta. assert (T : exists p, in_tree ls root p w) by (apply (every_once_item _ _ _ _ ev); exact I).
  destruct (item_again w T) as [->|((m & Im & Lm) & _)]; auto. exfalso. apply Ne. exists m. split; auto.
  rewrite aggregate_messages, (log_results fuel e ls c s root f names sep). apply in_flat_map. eexists. split; [apply in_map_iff; exists w; split; [reflexivity|exact I]|exact Im].
Qed.
Lemma item_retold w : (exists p, in_tree ls root p w) -> Forall2 (retold ls) (rp_messages (item_report fuel e ls c s f w)) (rp_messages (item_report fuel e ls' c s g w)).
Proof.
  intros T. assert (Same : forall l, Forall2 (retold ls) l l) by (induction l; constructor; auto; left; reflexivity).
  unfold item_report. destruct w as [path|d]; cbn [run_work].
  - assert (A : forall l, reads e f c path l -> g l = f l) by (intros l R; eapply same; eauto).
    pose proof (compile_agree e f g c fuel s path A) as C. unfold same_result in C.
    destruct (compile_file fuel e f c s path) as [[f' r]| |]; [destruct C as (g' & C & _)| |]; rewrite C; [destruct r|..]; apply Same.
  - pose proof (scan_again ls ls' rel d) as S. pose proof (fails_again ls ls' rel d) as K.
    destruct (run_dir_entry ls d) as [ws|why], (run_dir_entry ls' d) as [ws'|why']; try contradiction; [constructor|].
    constructor; [|constructor]. destruct (K _ _ eq_refl eq_refl) as [->|[A B]]; [left; reflexivity|]. right. exists d, why, why'. auto.
Qed.
Lemma messages_retold : exists qs, Permutation qs (rp_messages (aggregate st')) /\ Forall2 (retold ls) (rp_messages (aggregate st)) qs.
Proof.
  rewrite !aggregate_messages, log_again, (log_results fuel e ls c s root f names sep), !flat_map_concat_map, !map_map, <- !flat_map_concat_map.
  pose proof (completed_again _ _ _ _ _ rel names names' ev ev') as P. cbn [snd].
  exists (flat_map (fun x => rp_messages (item_report fuel e ls' c s g x)) (completed st)). split; [apply Permutation_flat; exact P|].
  assert (T : forall w, In w (completed st) -> exists p, in_tree ls root p w) by (intros w I; apply (every_once_item _ _ _ _ ev); exact I).
  clear ev ev' P. induction (completed st) as [|w l IH]; cbn [flat_map]; [constructor|]. apply Forall2_app; [apply item_retold, T; left; reflexivity|].
  apply IH. intros x I. apply T. right. exact I.
Qed.
Lemma ext_again : same_changes f g (ps_ext st) (ps_ext st').
Proof.
  intros l. destruct (run_outputs fuel e ls c s root f names sep n sched ev) as [A1 A2].
  destruct (run_outputs fuel e ls' c s root g names' (separate_again e ls ls' c root f g rel sep same) n' sched' ev') as [B1 B2].
  destruct (in_dec string_dec l (List.map (out_loc e) (files_of (completed st)))) as [I|N].
  - apply in_map_iff in I. destruct I as (path & <- & I). apply in_files_of in I.
    assert (Sp : is_source ls root path) by (apply (every_once_in _ _ _ _ ev); exact I).
    destruct (A1 path Sp) as (f' & r & Ef & ->). destruct (B1 path (proj2 (source_again _ _ rel _ _) Sp)) as (g' & r' & Eg & ->).
    assert (A : forall l, reads e f c path l -> g l = f l) by (intros l R; eapply same; eauto).
    pose proof (compile_agree e f g c fuel s path A) as C. rewrite Ef in C. destruct C as (g1 & Eg1 & w & W1 & W2 & _).
    rewrite Eg in Eg1. injection Eg1 as <- _. rewrite W1, W2. destruct w; auto.
  - assert (Q : forall path, is_source ls root path -> l <> out_loc e path).
    { intros path Sp E. apply N. apply in_map_iff. exists path. split; auto. apply in_files_of. apply (every_once_in _ _ _ _ ev). exact Sp. }
    left. split; [apply A2; auto|]. apply B2. intros path Sp. apply Q. apply (source_again _ _ rel). exact Sp.
Qed.
End Ends.
End Two.

(** ** The file of globals *)
Lemma globals_changes fuel e f g h k c s root ns ns' f' g' m m' :
  (forall p, order_ok (env_order e p)) -> inputs_consistent s -> same_changes f g h k -> (forall x, In x ns <-> In x ns') ->
  compile_globals_file fuel e h c s root ns = Done (f', m) ->
  compile_globals_file fuel e k c s root ns' = Done (g', m') ->
  same_changes f g f' g' /\ (m = None <-> m' = None).
Proof.
  intros Ho C Hf Hn. unfold compile_globals_file.
  assert (Os : order_ok (suborder (env_order e root) [1])). { intros q A l. apply Ho. }
  destruct ns as [|x xs].
  { destruct ns' as [|y ys]; [|exfalso; apply (Hn y); cbn; auto].
    intros H H'. inversion H; inversion H'; subst. split; auto. tauto. }
  destruct ns' as [|y ys]; [exfalso; apply (Hn x); cbn; auto|].
  destruct (compile_globals fuel c _ s (x :: xs)) as [a|] eqn:Ea; [|discriminate].
  destruct (compile_globals fuel c _ s (y :: ys)) as [b|] eqn:Eb; [|destruct a as [t|te]; [destruct (write_file e h _ t) as [? [?|]]|]; discriminate].
  pose proof (globals_same_names _ _ _ _ _ _ _ _ _ _ Os Os C Hn Ea Eb) as K.
  destruct a as [t|te].
  - subst b. assert (W : snd (write_file e h (globals_path c root) t) = snd (write_file e k (globals_path c root) t) /\
      same_changes f g (fst (write_file e h (globals_path c root) t)) (fst (write_file e k (globals_path c root) t))).
    { unfold write_file. destruct (env_write e (globals_path c root)); cbn; (split; [reflexivity|]); auto; intros l; destruct (String.eqb l _); auto. }
    destruct W as [W1 W2]. destruct (write_file e h _ t) as [f1 r1]. destruct (write_file e k _ t) as [g1 r2]. cbn [fst snd] in *. subst r2.
    destruct r1; intros H H'; inversion H; inversion H'; subst; split; auto; split; discriminate || auto.
  - destruct K as [e' ->]. intros H H'. inversion H; inversion H'; subst. split; auto. split; discriminate.
Qed.
