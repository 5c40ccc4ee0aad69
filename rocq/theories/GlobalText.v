(** The text of the globals file. *)
From Verif Require Export GlobalFacts DocFacts PropC22.

Lemma collect_res_split {E A} (l : list (res E A)) ys : collect_res l = Ok ys <-> l = List.map Ok ys.
Proof.
  revert ys. induction l as [|[a|e] l IH]; intros ys; cbn.
  - split; [intros H; inversion H; auto|]. destruct ys; [auto|discriminate].
  - destruct (collect_res l) as [zs|e] eqn:Ec.
    + split; [intros H; inversion H; subst; cbn; f_equal; apply IH; auto|].
      destruct ys as [|y ys]; [discriminate|]. cbn. intros H. inversion H; subst.
      assert (Ok zs = Ok ys) as X by (apply IH; auto). inversion X; subst. auto.
    + split; [discriminate|]. destruct ys as [|y ys]; [discriminate|]. cbn. intros H. inversion H; subst.
      assert (X : Err e = Ok ys) by (apply IH; auto). discriminate.
  - split; [discriminate|]. destruct ys; discriminate.
Qed.
Lemma collect_res_map {E A B} (g : A -> res E B) l ys : collect_res (List.map g l) = Ok ys <-> Forall2 (fun x y => g x = Ok y) l ys.
Proof.
  rewrite collect_res_split. revert ys. induction l as [|x l IH]; intros [|y ys]; cbn.
  - split; auto.
  - split; [discriminate|intros H; inversion H].
  - split; [discriminate|intros H; inversion H].
  - split.
    + intros H. inversion H. constructor; auto. apply IH. auto.
    + intros H. inversion H; subst. rewrite H3. f_equal. apply IH. auto.
Qed.

(** ** Enums *)
Lemma enum_text name doc vs : exists ws, Permutation vs ws /\ sorted_by enum_member ws /\
  enum_def name doc vs = compile_documentation doc false 0 +++ "export enum " +++ name +++ " {" +++ nl
    +++ join nl (List.map enum_member ws) +++ nl +++ "}".
Proof.
  exists (sort_by enum_member vs). split; [apply sort_by_perm|]. split; [apply sort_by_sorted|].
  unfold enum_def. rewrite <- (sort_by_map enum_member (fun x => x) enum_member) by reflexivity. reflexivity.
Qed.
Definition plain_name (v : string) : Prop := snd (span_name v) = "".
Lemma compare_prefix p a b : String.compare (p +++ a) (p +++ b) = String.compare a b.
Proof.
  induction p as [|x p IH]; auto. cbn [String.append String.compare]. rewrite (proj2 (ascii_compare_eq x x) eq_refl). exact IH.
Qed.
Lemma plain_cons x v : plain_name (String x v) <-> name_char x = true /\ plain_name v.
Proof.
  unfold plain_name. cbn. destruct (name_char x).
  - destruct (span_name v) as [a b]. cbn. tauto.
  - cbn. split; [discriminate|intros [? _]; discriminate].
Qed.
Lemma name_char_space x : name_char x = true -> Ascii.compare " " x = Lt /\ Ascii.compare x " " = Gt.
Proof.
  intros H. destruct x as [b0 b1 b2 b3 b4 b5 b6 b7].
  destruct b0, b1, b2, b3, b4, b5, b6, b7; first [discriminate H | split; reflexivity].
Qed.
Lemma member_compare v w : plain_name v -> plain_name w ->
  String.compare (enum_member v) (enum_member w) = String.compare v w.
Proof.
  unfold enum_member. rewrite compare_prefix.
  assert (K : forall v w a b, plain_name v -> plain_name w -> (v = w -> a = b) ->
    String.compare (v +++ String " " a) (w +++ String " " b) = String.compare v w).
  { clear. induction v as [|x v IH]; intros [|y w] a b Pv Pw E.
    - rewrite (E eq_refl). apply str_compare_eq. reflexivity.
    - apply plain_cons in Pw. destruct Pw as [Py _]. cbn [String.append String.compare]. rewrite (proj1 (name_char_space _ Py)). reflexivity.
    - apply plain_cons in Pv. destruct Pv as [Px _]. cbn [String.append String.compare]. rewrite (proj2 (name_char_space _ Px)). reflexivity.
    - apply plain_cons in Pv, Pw. destruct Pv as [_ Pv], Pw as [_ Pw]. cbn [String.append String.compare].
      destruct (Ascii.compare x y) eqn:Ec; auto. apply ascii_compare_eq in Ec. subst. apply IH; auto.
      intros ->. auto. }
  intros Pv Pw. apply (K v w ("= " +++ dq +++ v +++ dq +++ ",") ("= " +++ dq +++ w +++ dq +++ ",") Pv Pw). intros ->. auto.
Qed.
Lemma members_sorted ws : Forall plain_name ws -> sorted_by enum_member ws -> sorted_by (fun v => v) ws.
Proof.
  intros Pn S0. induction S0 as [|w ws S1 IH F]; constructor; inversion Pn; subst; auto; [apply IH; auto|].
  rewrite Forall_forall in *. intros x I. specialize (F x I). unfold str_leb in *.
  rewrite member_compare in F; auto.
Qed.

(** ** Input objects *)
Lemma input_text c o p name fields : order_ok o -> NoDup (List.map fst fields) ->
  (forall fn f, In (fn, f) fields -> exists l, input_field_line c (fn, f) = Ok l) ->
  exists fs ls, Permutation fields fs /\ sorted_by fst fs /\ Forall2 (fun x l => input_field_line c x = Ok l) fs ls /\
    input_def c o p name fields = Ok ("export type " +++ name +++ " = {" +++ nl +++ join nl ls +++ nl +++ "};").
Proof.
  intros Ho N H. exists (sort_by fst (o p _ fields)).
  assert (Pm : Permutation fields (sort_by fst (o p _ fields))).
  { transitivity (o p _ fields); [apply Ho|apply sort_by_perm]. }
  destruct (collect_res_total (input_field_line c) (sort_by fst (o p _ fields)) (fun x l => input_field_line c x = Ok l)) as (ls & E & F).
  { intros [fn f] I. apply (Permutation_in _ (Permutation_sym Pm)) in I. destruct (H _ _ I) as (l & El). eauto. }
  exists ls. split; auto. split; [apply sort_by_sorted|]. split; auto. unfold input_def. rewrite E. reflexivity.
Qed.
Lemma input_line_ok s c fn f : input_field_ok s f -> exists l, input_field_line c (fn, f) = Ok l.
Proof.
  unfold input_field_ok, input_field_line, input_field_type. destruct (ft_def (sf_type f)); try contradiction; eauto.
Qed.

(** ** Whole file *)
Section File.
Variables (s : schema) (o : order) (c : cconfig).
Hypothesis o_ok : order_ok o.
Hypothesis cons : inputs_consistent s.

(** Definition text of one type *)
Inductive def_text (n : string) (t : stype) : string -> Prop :=
| dt_enum vs ws : st_def t = TEnum vs -> Permutation vs ws -> sorted_by enum_member ws ->
    def_text n t (compile_documentation (st_doc t) false 0 +++ "export enum " +++ n +++ " {" +++ nl
      +++ join nl (List.map enum_member ws) +++ nl +++ "}")
| dt_input fields fs ls : st_def t = TInputObject n fields -> Permutation fields fs -> sorted_by fst fs ->
    Forall2 (fun x l => input_field_line c x = Ok l) fs ls ->
    def_text n t ("export type " +++ n +++ " = {" +++ nl +++ join nl ls +++ nl +++ "};").

Lemma global_def_ok i n t : get_type s n = Some t -> global_type s n ->
  exists d, global_def c o (i, (n, t)) = Ok d /\ def_text n t d.
Proof.
  intros G (t' & G' & K). rewrite G in G'. inversion G'; subst t'. unfold global_def.
  destruct (st_def t) as [|vs| | |nm fields|] eqn:Et; try contradiction.
  - destruct (enum_text n (st_doc t) vs) as (ws & Pm & S0 & ->). eexists. split; [reflexivity|]. econstructor; eauto.
  - destruct (cons n t nm fields G Et) as (-> & N & Fok).
    destruct (input_text c o [i; 3] n fields o_ok N) as (fs & ls & Pm & S0 & F & ->).
    { intros fn f I. eapply input_line_ok. eapply Fok; eauto. }
    eexists. split; [reflexivity|]. econstructor; eauto.
Qed.
Lemma needed_global names : (forall n, In n names -> global_type s n) -> forall n, needed s names n -> global_type s n.
Proof.
  intros H n (r & I & L). apply H in I. clear H. induction L as [|n m k (t & G & M) L IH]; auto.
  apply IH. destruct M as (nm & fs & fn & f & E & If & <- & K).
  destruct (cons n t nm fs G E) as (_ & _ & Fok). specialize (Fok _ _ If). unfold input_field_ok in Fok.
  destruct K as [K|K]; rewrite K in Fok.
  - destruct Fok as (vs & Ev). unfold global_type. destruct (get_type s (ft_name (sf_type f))) as [u|]; [|discriminate].
    cbn in Ev. inversion Ev as [Ev']. exists u. split; auto. rewrite Ev'. auto.
  - destruct Fok as (nm' & fs' & Ev). unfold global_type. destruct (get_type s (ft_name (sf_type f))) as [u|]; [|discriminate].
    cbn in Ev. inversion Ev as [Ev']. exists u. split; auto. rewrite Ev'. auto.
Qed.
(** The file lists the needed types, each once, sorted by name, with these definitions *)
Definition file_text (names : gset) (text : string) : Prop :=
  exists l ds, NoDup (List.map fst l) /\ sorted_by fst l /\
    (forall n t, In (n, t) l <-> needed s names n /\ get_type s n = Some t) /\
    Forall2 (fun x d => def_text (fst x) (snd x) d) l ds /\
    text = header +++ join (nl +++ nl) ds.
Lemma index_list_sort {A} (l : list A) x : In x (index_list l) -> In (snd x) l.
Proof. intros I. apply (in_map snd) in I. rewrite index_list_map_snd in I. auto. Qed.
Lemma Forall2_index {A B} (Q : A -> B -> Prop) (l : list A) ys :
  Forall2 (fun x y => Q (snd x) y) (index_list l) ys -> Forall2 Q l ys.
Proof.
  intros F. rewrite <- (index_list_map_snd l). revert F. generalize (index_list l). intros l' F.
  induction F; cbn; constructor; auto.
Qed.
Lemma globals_seed fuel names m : (forall n, In n names -> global_type s n) -> seed_map s o fuel names = Some (Ok m) ->
  exists text, compile_globals fuel c o s names = Some (Ok text) /\ file_text names text.
Proof.
  intros Gn H. destruct (seed_ok s o o_ok cons fuel names m H) as (N & K).
  unfold compile_globals, global_defs. fold (seed_map s o fuel names). rewrite H.
  set (l := sort_by fst (o [2] _ m)).
  assert (Pm : Permutation m l). { transitivity (o [2] _ m); [apply o_ok|apply sort_by_perm]. }
  assert (Nl : NoDup (List.map fst l)). { eapply Permutation_NoDup; [apply Permutation_map; exact Pm|exact N]. }
  assert (Kl : forall n t, In (n, t) l <-> needed s names n /\ get_type s n = Some t).
  { intros n t. rewrite <- K. split.
    - intros I. apply In_aget; auto. apply (Permutation_in _ (Permutation_sym Pm)). auto.
    - intros G. apply aget_In in G. apply (Permutation_in _ Pm). auto. }
  destruct (collect_res_total (global_def c o) (index_list l) (fun x d => def_text (fst (snd x)) (snd (snd x)) d)) as (ds & E & F).
  { intros [i [n t]] I. cbn [fst snd]. apply index_list_sort in I. cbn in I. apply Kl in I. destruct I as [Nd G].
    apply global_def_ok; auto. eapply needed_global; eauto. }
  rewrite E. eexists. split; [reflexivity|]. exists l, ds. split; auto. split; [apply sort_by_sorted|].
  split; auto. split; auto. apply (Forall2_index (fun x d => def_text (fst x) (snd x) d)). exact F.
Qed.
Lemma globals_ok names : (forall n, In n names -> global_type s n /\ wellfounded s n) ->
  exists N, forall k, N <= k -> exists text, compile_globals k c o s names = Some (Ok text) /\ file_text names text.
Proof.
  intros H. destruct (seed_term s o o_ok cons names) as (N & HN). { intros n I. apply H. auto. }
  exists N. intros k L. specialize (HN k L). destruct (seed_map s o k names) as [[m|e]|] eqn:E; [|exfalso|congruence].
  - eapply globals_seed; eauto. intros n I. apply H. auto.
  - eapply seed_noerr; eauto. intros n I. destruct (H n I) as ((t & G & _) & _). congruence.
Qed.
Lemma globals_diverge names n : (forall n, In n names -> global_type s n) -> In n names -> ~ wellfounded s n ->
  forall k, compile_globals k c o s names = None.
Proof.
  intros H I W k. unfold compile_globals, global_defs. fold (seed_map s o k names).
  destruct (seed_map s o k names) as [[m|e]|] eqn:E; auto; exfalso.
  - apply W. eapply seed_wf; eauto.
  - eapply seed_noerr; eauto. intros n' I'. destruct (H n' I') as (t & G & _). congruence.
Qed.
Lemma globals_done names k r : (forall n, In n names -> global_type s n) -> compile_globals k c o s names = Some r ->
  (forall n, In n names -> wellfounded s n) /\ exists text, r = Ok text /\ file_text names text.
Proof.
  intros H E. destruct (seed_map s o k names) as [[m|e]|] eqn:Es.
  - destruct (globals_seed k names m H Es) as (text & E' & F). rewrite E in E'. inversion E'; subst.
    split; eauto. intros n I. eapply seed_wf; eauto.
  - exfalso. eapply seed_noerr; eauto. intros n' I'. destruct (H n' I') as (t & G & _). congruence.
  - unfold compile_globals, global_defs in E. fold (seed_map s o k names) in E. rewrite Es in E. discriminate.
Qed.
End File.

(** ** The content does not depend on the hash order *)
Lemma def_text_unique c n t d d' : (forall fields, st_def t = TInputObject n fields -> NoDup (List.map fst fields)) ->
  def_text c n t d -> def_text c n t d' -> d = d'.
Proof.
  intros N H H'. destruct H as [vs ws E Pm S0|fields fs ls E Pm S0 F];
    destruct H' as [vs' ws' E' Pm' S0'|fields' fs' ls' E' Pm' S0' F']; rewrite E in E'; inversion E'; subst.
  - replace (List.map enum_member ws') with (List.map enum_member ws); auto. apply sorted_strings_eq.
    + clear - S0. induction S0; cbn; constructor; auto. rewrite Forall_map. auto.
    + clear - S0'. induction S0'; cbn; constructor; auto. rewrite Forall_map. auto.
    + apply Permutation_map. rewrite <- Pm. auto.
  - assert (fs = fs') as ->.
    { apply (sorted_perm_eq fst); auto.
      - eapply Permutation_NoDup; [apply Permutation_map; exact Pm|eapply N; eauto].
      - rewrite <- Pm. auto. }
    assert (ls = ls') as ->; auto. clear - F F'. revert ls' F'.
    induction F; intros ls' F'; inversion F'; subst; auto. f_equal; [congruence|auto].
Qed.
Lemma file_text_unique s c names a b : inputs_consistent s -> file_text s c names a -> file_text s c names b -> a = b.
Proof.
  intros C (l & ds & N & S0 & K & F & ->) (l' & ds' & N' & S0' & K' & F' & ->).
  assert (l = l') as ->.
  { apply (sorted_perm_eq fst); auto. apply NoDup_Permutation.
    - eapply NoDup_map_inv; eauto.
    - eapply NoDup_map_inv; eauto.
    - intros [n t]. rewrite K, K'. tauto. }
  do 2 f_equal. clear K S0 N S0' N'. assert (G : forall n t, In (n, t) l' -> get_type s n = Some t) by (intros; apply K'; auto).
  clear K'. revert ds' F'. induction F as [|[n t] d l ds H F IH]; intros ds' F'; inversion F' as [|? d' ? ds2 H' F2]; subst; auto.
  f_equal.
  - eapply def_text_unique; eauto. intros fields E. apply (C n t n fields); auto. apply G. cbn. auto.
  - apply IH; auto. intros; apply G; cbn; auto.
Qed.
