(** Collecting the types of the globals file. *)
From Verif Require Export SpecGlobal WrapFacts LoadFacts IrFacts.

Lemma fold_res_cons {X St E} (f : X -> St -> option (res E St)) x l s :
  fold_res f (x :: l) s = match f x s with Some (Ok s') => fold_res f l s' | r => r end.
Proof. reflexivity. Qed.

(** ** A loop that adds, for each element, a set of names with their schema types *)
Section Adding.
Variable s : schema.
Definition agree (m : amap string stype) : Prop := forall n t, aget n m = Some t -> get_type s n = Some t.
Definition adds (m m' : amap string stype) (N : string -> Prop) : Prop :=
  agree m -> NoDup (akeys m) ->
  agree m' /\ NoDup (akeys m') /\ forall n, In n (akeys m') <-> In n (akeys m) \/ N n.
Lemma adds_aset m n t : get_type s n = Some t -> adds m (aset n t m) (fun k => k = n).
Proof.
  intros G A D. split; [|split].
  - intros k u. rewrite aget_aset. destruct (eqb k n) eqn:E.
    + intros H. inversion H; subst. apply eqb_ok in E. subst. auto.
    + apply A.
  - apply NoDup_aset. auto.
  - intros k. rewrite In_akeys_aset. tauto.
Qed.
Lemma adds_none m : adds m m (fun _ => False).
Proof. intros A D. split; auto. split; auto. tauto. Qed.
Lemma adds_trans m1 m2 m3 N M (K : string -> Prop) : adds m1 m2 N -> adds m2 m3 M -> (forall n, K n <-> N n \/ M n) -> adds m1 m3 K.
Proof.
  intros H1 H2 HK A D. destruct (H1 A D) as (A2 & D2 & K2). destruct (H2 A2 D2) as (A3 & D3 & K3).
  split; auto. split; auto. intros n. rewrite K3, K2, HK. tauto.
Qed.
Lemma adds_ext m m' N (M : string -> Prop) : adds m m' N -> (forall n, M n <-> N n) -> adds m m' M.
Proof. intros H HK A D. destruct (H A D) as (A2 & D2 & K2). split; auto. split; auto. intros n. rewrite K2, HK. tauto. Qed.
Lemma fold_adds {X E} (f : X -> amap string stype -> option (res E (amap string stype))) (N : X -> string -> Prop) l :
  (forall x m m', In x l -> f x m = Some (Ok m') -> adds m m' (N x)) ->
  forall m m', fold_res f l m = Some (Ok m') -> adds m m' (fun n => exists x, In x l /\ N x n).
Proof.
  induction l as [|x l IH]; intros H m m' E0.
  - inversion E0; subst. eapply adds_ext; [apply adds_none|]. intros n. split; [intros (x & [] & _)|intros []].
  - rewrite fold_res_cons in E0. destruct (f x m) as [[m1|e]|] eqn:Ef; try discriminate.
    eapply adds_trans; [apply (H x); cbn; eauto| |].
    + apply IH; eauto. intros y m2 m3 I. apply H. cbn. auto.
    + intros n. cbn. split.
      * intros (y & [<-|I] & Hn); eauto.
      * intros [Hn|(y & I & Hn)]; eauto.
Qed.
End Adding.
Lemma fold_res_done {X St E} (f : X -> St -> option (res E St)) l : (forall x m, In x l -> f x m <> None) ->
  forall m, fold_res f l m <> None.
Proof.
  induction l as [|x l IH]; intros H m; [discriminate|]. rewrite fold_res_cons.
  pose proof (H x m (or_introl eq_refl)). destruct (f x m) as [[m1|e]|]; try congruence.
  apply IH. intros; apply H; cbn; auto.
Qed.
Lemma fold_res_noerr {X St E} (f : X -> St -> option (res E St)) l : (forall x m e, In x l -> f x m <> Some (Err e)) ->
  forall m e, fold_res f l m <> Some (Err e).
Proof.
  induction l as [|x l IH]; intros H m e; [discriminate|]. rewrite fold_res_cons.
  destruct (f x m) as [[m1|e1]|] eqn:Ef; try discriminate.
  - apply IH. intros; apply H; cbn; auto.
  - exfalso. apply (H x m e1); cbn; auto.
Qed.
Lemma fold_res_each {X St E} (f : X -> St -> option (res E St)) l : forall m m', fold_res f l m = Some (Ok m') ->
  forall x, In x l -> exists m1 m2, f x m1 = Some (Ok m2).
Proof.
  induction l as [|y l IH]; intros m m' H x; [intros []|]. rewrite fold_res_cons in H.
  destruct (f y m) as [[m1|e]|] eqn:Ef; try discriminate. intros [<-|I]; eauto.
Qed.

Section Walk.
Variables (s : schema) (o : order).
Hypothesis o_ok : order_ok o.
Hypothesis cons : inputs_consistent s.

(** One input object field *)
Definition sub_step (k : nat) (p : list nat) (x : nat * sfield) (m : amap string stype)
  : option (res ts_error (amap string stype)) :=
  let t := sf_type (snd x) in
  match ft_def t with
  | FDInputObject =>
      match get_type s (ft_name t) with
      | None => Some (Err (TMissingType (ft_name t)))
      | Some gt => add_sub_inputs k s o (fst x :: p) gt (aset (ft_name t) gt m)
      end
  | FDEnum =>
      match get_type s (ft_name t) with
      | None => Some (Err (TMissingType (ft_name t)))
      | Some gt => Some (Ok (aset (ft_name t) gt m))
      end
  | FDScalar _ => Some (Ok m)
  | _ => Some (Err (TInvalidFieldDef (ft_name t) (sf_name (snd x))))
  end.
Lemma add_sub_inputs_S k p cur m : add_sub_inputs (S k) s o p cur m =
  match st_def cur with
  | TInputObject _ fields => fold_res (sub_step k p) (o p _ (index_list (List.map snd fields))) m
  | _ => Some (Ok m)
  end.
Proof. reflexivity. Qed.

Definition cur_ok (cur : stype) : Prop := forall nm fs, st_def cur = TInputObject nm fs ->
  forall fn f, In (fn, f) fs -> input_field_ok s f.
Lemma get_cur_ok n t : get_type s n = Some t -> cur_ok t.
Proof. intros G nm fs E. apply (cons n t nm fs G E). Qed.
Definition ref_names (f : sfield) (n : string) : Prop :=
  (ft_def (sf_type f) = FDEnum \/ ft_def (sf_type f) = FDInputObject) /\ leads s (ft_name (sf_type f)) n.
Definition below (cur : stype) (n : string) : Prop := exists r, mentions cur r /\ leads s r n.

Lemma step_fields {A} (fields : list (string * A)) p x : In x (o p _ (index_list (List.map snd fields))) ->
  exists fn, In (fn, snd x) fields.
Proof.
  intros I. apply (Permutation_in _ (Permutation_sym (o_ok _ _ _))) in I.
  apply (in_map snd) in I. rewrite index_list_map_snd in I. apply in_map_iff in I.
  destruct I as ([fn f] & E & I). cbn in E. subst. eauto.
Qed.
Lemma fields_step {A} (fields : list (string * A)) p fn f : In (fn, f) fields ->
  exists i, In (i, f) (o p _ (index_list (List.map snd fields))).
Proof.
  intros I. apply (in_map snd) in I. cbn in I. rewrite <- (index_list_map_snd (List.map snd fields)) in I.
  apply in_map_iff in I. destruct I as ([i f'] & E & I). cbn in E. subst.
  exists i. apply (Permutation_in _ (o_ok _ _ _)). auto.
Qed.

Lemma leads_enum n t vs k : get_type s n = Some t -> st_def t = TEnum vs -> leads s n k -> k = n.
Proof.
  intros G E L. inversion L as [|? m ? (t' & G' & M) L']; subst; auto.
  rewrite G in G'. inversion G'; subst t'. destruct M as (nm & fs & fn & f & E' & _). congruence.
Qed.
Lemma sub_adds k : forall p cur m m', cur_ok cur -> add_sub_inputs k s o p cur m = Some (Ok m') ->
  adds s m m' (below cur).
Proof.
  induction k as [|k IH]; intros p cur m m' C H; [discriminate|]. rewrite add_sub_inputs_S in H.
  destruct (st_def cur) as [| | | |nm fields|] eqn:Ec.
  1,2,3,4,6: inversion H; subst; eapply adds_ext; [apply adds_none|];
    intros n; split; [intros (r & (nm' & fs & fn & f & E & _) & _); congruence|intros []].
  eapply adds_ext; [eapply (fold_adds s (sub_step k p) (fun x => ref_names (snd x))); [|exact H]|].
  - intros x m1 m2 I Hx. destruct (step_fields _ _ _ I) as (fn & If). pose proof (C _ _ Ec _ _ If) as Ok_f.
    unfold sub_step in Hx. unfold input_field_ok in Ok_f. unfold ref_names.
    destruct (ft_def (sf_type (snd x))) eqn:Ed; try discriminate.
    + (* enum *) destruct (get_type s (ft_name (sf_type (snd x)))) as [gt|] eqn:G; [|discriminate].
      inversion Hx; subst. eapply adds_ext; [apply adds_aset; eauto|]. intros n. split.
      * intros (_ & L). destruct Ok_f as (vs & Ev). cbn in Ev. inversion Ev. eapply leads_enum; eauto.
      * intros ->. split; auto. constructor.
    + (* scalar *) inversion Hx; subst. eapply adds_ext; [apply adds_none|]. intros n. split; [intros ([|] & _); discriminate|intros []].
    + (* input object *) destruct (get_type s (ft_name (sf_type (snd x)))) as [gt|] eqn:G; [|discriminate].
      eapply adds_trans; [apply adds_aset; eauto|eapply IH; [eapply get_cur_ok; eauto|exact Hx]|].
      intros n. split.
      * intros (_ & L). inversion L as [|? r ? (t' & G' & M) L']; subst; auto. right.
        rewrite G in G'. inversion G'; subst t'. exists r. auto.
      * intros [->|(r & M & L)]; (split; [auto|]); [constructor|]. eapply leads_step; eauto. exists gt. auto.
  - intros n. split.
    + intros (r & (nm' & fs & fn & f & E & If & En & K) & L). rewrite Ec in E. inversion E; subst.
      destruct (fields_step _ p _ _ If) as (i & Ii). exists (i, f). split; auto. split; auto.
    + intros (x & I & K & L). destruct (step_fields _ _ _ I) as (fn & If). eexists. split; [|exact L].
      exists nm, fields, fn, (snd x). auto.
Qed.
Lemma sub_wf k : forall p cur m m', cur_ok cur -> add_sub_inputs k s o p cur m = Some (Ok m') ->
  forall r, mentions cur r -> wellfounded s r.
Proof.
  induction k as [|k IH]; intros p cur m m' C H r M; [discriminate|]. rewrite add_sub_inputs_S in H.
  destruct M as (nm & fs & fn & f & E & I & En & K). rewrite E in H.
  destruct (fields_step _ p _ _ I) as (i & Ii). destruct (fold_res_each _ _ _ _ H _ Ii) as (m1 & m2 & Hx).
  pose proof (C _ _ E _ _ I) as Ok_f. unfold sub_step in Hx. unfold input_field_ok in Ok_f. cbn [snd] in Hx.
  subst r. constructor. intros b (t & G & M).
  destruct K as [K|K]; rewrite K in *.
  - rewrite G in Ok_f. destruct Ok_f as (vs & Ev). cbn in Ev. inversion Ev.
    destruct M as (? & ? & ? & ? & X & _). congruence.
  - rewrite G in Hx. eapply IH; [eapply get_cur_ok; eauto|exact Hx|exact M].
Qed.
Lemma sub_noerr k : forall p cur m e, cur_ok cur -> add_sub_inputs k s o p cur m <> Some (Err e).
Proof.
  induction k as [|k IH]; intros p cur m e C; [discriminate|]. rewrite add_sub_inputs_S.
  destruct (st_def cur) as [| | | |nm fields|] eqn:Ec; try discriminate.
  apply fold_res_noerr. intros x m1 e1 I. destruct (step_fields _ _ _ I) as (fn & If).
  pose proof (C _ _ Ec _ _ If) as Ok_f. unfold sub_step. unfold input_field_ok in Ok_f.
  destruct (ft_def (sf_type (snd x))); try contradiction; try discriminate.
  - destruct Ok_f as (vs & Ev). destruct (get_type s (ft_name (sf_type (snd x)))); discriminate.
  - destruct Ok_f as (n & fs & Ev). destruct (get_type s (ft_name (sf_type (snd x)))) as [gt|] eqn:G; [|discriminate].
    apply IH. eapply get_cur_ok; eauto.
Qed.
Lemma fields_bound (Q : nat -> sfield -> Prop) (fs : list (string * sfield)) :
  (forall fn f, In (fn, f) fs -> exists N, forall k, N <= k -> Q k f) ->
  exists N, forall k, N <= k -> forall fn f, In (fn, f) fs -> Q k f.
Proof.
  induction fs as [|[fn f] fs IH]; intros H; [exists 0; intros ? ? ? ? []|].
  destruct IH as (N1 & H1). { intros; eapply H; cbn; eauto. }
  destruct (H fn f) as (N2 & H2); [cbn; auto|]. exists (N1 + N2). intros k L fn' f' [E|I].
  - inversion E; subst. apply H2. lia.
  - eapply H1; eauto. lia.
Qed.
Lemma sub_term cur : cur_ok cur -> (forall r, mentions cur r -> wellfounded s r) ->
  exists N, forall k, N <= k -> forall p m, add_sub_inputs k s o p cur m <> None.
Proof.
  assert (K : forall cur, (forall r t, mentions cur r -> get_type s r = Some t ->
      exists N, forall k, N <= k -> forall p m, add_sub_inputs k s o p t m <> None) ->
    exists N, forall k, N <= k -> forall p m, add_sub_inputs k s o p cur m <> None).
  { clear cur. intros cur H. destruct (st_def cur) as [| | | |nm fields|] eqn:Ec.
    1,2,3,4,6: exists 1; intros [|k] L p m; [lia|]; rewrite add_sub_inputs_S, Ec; discriminate.
    destruct (fields_bound (fun k f => forall i p m, sub_step k p (i, f) m <> None) fields) as (N & HN).
    { intros fn f I. destruct (ft_def (sf_type f)) eqn:Ed.
      1,2,3,4,5,7: exists 0; intros k _ i p m; unfold sub_step; cbn [snd]; rewrite Ed;
        try discriminate; destruct (get_type s (ft_name (sf_type f))); discriminate.
      destruct (get_type s (ft_name (sf_type f))) as [gt|] eqn:G.
      - destruct (H (ft_name (sf_type f)) gt) as (N & HN); auto.
        { exists nm, fields, fn, f. auto. }
        exists N. intros k L i p m. unfold sub_step. cbn [snd fst]. rewrite Ed, G. apply HN. auto.
      - exists 0. intros k _ i p m. unfold sub_step. cbn [snd]. rewrite Ed, G. discriminate. }
    exists (S N). intros [|k] L p m; [lia|]. rewrite add_sub_inputs_S, Ec.
    apply fold_res_done. intros [i f] m1 I. destruct (step_fields _ _ _ I) as (fn & If).
    eapply HN; [lia|exact If]. }
  intros C W. apply K. intros r t M G. pose proof (W r M) as A. clear W M.
  revert t G. induction A as [r _ IH]. intros t G. apply K. intros r' t' M G'. eapply IH; eauto. exists t. auto.
Qed.

(** ** Seeding with the used names *)
Lemma seed_adds fuel x m m' : add_global fuel s o x m = Some (Ok m') -> adds s m m' (leads s (snd x)).
Proof.
  unfold add_global. destruct (get_type s (snd x)) as [gt|] eqn:G; [|discriminate].
  destruct (add_sub_inputs fuel s o [fst x; 1] gt m) as [[m1|e]|] eqn:E; try discriminate.
  intros H. inversion H; subst. eapply adds_trans.
  - eapply sub_adds; [eapply get_cur_ok; eauto|exact E].
  - apply adds_aset. eauto.
  - intros n. split.
    + intros L. inversion L as [|? r ? (t' & G' & M) L']; subst; auto. left.
      rewrite G in G'. inversion G'; subst t'. exists r. auto.
    + intros [(r & M & L)| ->]; [|constructor]. eapply leads_step; eauto. exists gt. auto.
Qed.
Definition seed_map (fuel : nat) (names : gset) : option (res ts_error (amap string stype)) :=
  fold_res (add_global fuel s o) (o [0] _ (index_list names)) [].
Lemma names_in (names : gset) x : In x (o [0] _ (index_list names)) -> In (snd x) names.
Proof.
  intros I. apply (Permutation_in _ (Permutation_sym (o_ok _ _ _))) in I.
  apply (in_map snd) in I. rewrite index_list_map_snd in I. auto.
Qed.
Lemma in_names (names : gset) n : In n names -> exists i, In (i, n) (o [0] _ (index_list names)).
Proof.
  intros I. rewrite <- (index_list_map_snd names) in I. apply in_map_iff in I.
  destruct I as ([i n'] & E & I). cbn in E. subst. exists i. apply (Permutation_in _ (o_ok _ _ _)). auto.
Qed.
Lemma seed_ok fuel names m : seed_map fuel names = Some (Ok m) ->
  NoDup (akeys m) /\ (forall n t, aget n m = Some t <-> needed s names n /\ get_type s n = Some t).
Proof.
  intros H. destruct (fold_adds s _ (fun x => leads s (snd x)) _ (fun x m1 m2 _ => seed_adds fuel x m1 m2) _ _ H) as (A & D & K).
  { intros n t. discriminate. } { constructor. }
  split; auto. intros n t. split.
  - intros G. split; auto. assert (I : In n (akeys m)) by (eapply aget_Some_key; eauto).
    apply K in I. destruct I as [[]|(x & I & L)]. exists (snd x). split; auto. apply names_in. auto.
  - intros ((r & I & L) & G). destruct (in_names _ _ I) as (i & Ii).
    assert (In n (akeys m)) as Kn. { apply K. right. exists (i, r). auto. }
    destruct (akeys_In_aget _ _ Kn) as (t' & G'). pose proof (A _ _ G'). congruence.
Qed.
Lemma seed_wf fuel names m : seed_map fuel names = Some (Ok m) -> forall n, In n names -> wellfounded s n.
Proof.
  intros H n I. destruct (in_names _ _ I) as (i & Ii). destruct (fold_res_each _ _ _ _ H _ Ii) as (m1 & m2 & Hx).
  unfold add_global in Hx. cbn [snd fst] in Hx. destruct (get_type s n) as [gt|] eqn:G; [|discriminate].
  destruct (add_sub_inputs fuel s o [i; 1] gt m1) as [[m3|e]|] eqn:E; try discriminate.
  constructor. intros b (t & G' & M). rewrite G in G'. inversion G'; subst t.
  eapply sub_wf; [eapply get_cur_ok; eauto|exact E|exact M].
Qed.
Lemma seed_noerr fuel names e : (forall n, In n names -> get_type s n <> None) -> seed_map fuel names <> Some (Err e).
Proof.
  intros H. apply fold_res_noerr. intros x m e1 I. apply names_in in I. apply H in I. unfold add_global.
  destruct (get_type s (snd x)) as [gt|] eqn:G; [|congruence].
  destruct (add_sub_inputs fuel s o [fst x; 1] gt m) as [[m1|e2]|] eqn:E; try discriminate.
  exfalso. eapply sub_noerr; [eapply get_cur_ok; eauto|exact E].
Qed.
Lemma seed_term names : (forall n, In n names -> wellfounded s n) ->
  exists N, forall k, N <= k -> seed_map k names <> None.
Proof.
  intros W. assert (H : exists N, forall k, N <= k -> forall n, In n names -> forall i m, add_global k s o (i, n) m <> None).
  { induction names as [|n names IH]; [exists 0; intros ? ? ? []|].
    destruct IH as (N & HN). { intros; apply W; cbn; auto. }
    assert (X : exists N, forall k, N <= k -> forall i m, add_global k s o (i, n) m <> None).
    { unfold add_global. cbn [snd fst]. destruct (get_type s n) as [gt|] eqn:G; [|exists 0; discriminate].
      destruct (sub_term gt) as (N1 & H1); [eapply get_cur_ok; eauto| |].
      - intros r M. specialize (W n (or_introl eq_refl)). inversion W as [W']. apply W'. exists gt. auto.
      - exists N1. intros k L i m. specialize (H1 k L [i; 1] m).
        destruct (add_sub_inputs k s o [i; 1] gt m) as [[m1|e]|]; congruence. }
    destruct X as (N1 & H1). exists (N + N1). intros k L n' [<-|I] i m; [apply H1; lia|apply HN; auto; lia]. }
  destruct H as (N & HN). exists N. intros k L. apply fold_res_done. intros [i n] m I.
  apply (HN k L n). apply names_in in I. auto.
Qed.
End Walk.
