(** C24: the globals file is closed and minimal. *)
From Verif Require Import InputFacts Worlds.

(** Given well-founded input objects, the file is produced and defines exactly the needed types: the
    requested ones and all they lead to, each once, sorted by name ([file_text]) *)
Theorem C24_contents : forall s o c names, order_ok o -> inputs_consistent s ->
  (forall n, In n names -> global_type s n /\ wellfounded s n) ->
  exists N, forall k, N <= k -> exists text, compile_globals k c o s names = Some (Ok text) /\
    exists l ds, NoDup (List.map fst l) /\ sorted_by fst l /\
      (forall n t, In (n, t) l <-> needed s names n /\ get_type s n = Some t) /\
      Forall2 (fun x d => def_text c (fst x) (snd x) d) l ds /\
      text = header +++ join (nl +++ nl) ds.
Proof. intros s o c names Ho C H. exact (globals_ok s o c Ho C names H). Qed.
Print Assumptions C24_contents.

(** Whenever a file is produced at all, that is its content *)
Theorem C24_produced : forall s o c names k r, order_ok o -> inputs_consistent s ->
  (forall n, In n names -> global_type s n) -> compile_globals k c o s names = Some r ->
  exists text l ds, r = Ok text /\ NoDup (List.map fst l) /\ sorted_by fst l /\
      (forall n t, In (n, t) l <-> needed s names n /\ get_type s n = Some t) /\
      Forall2 (fun x d => def_text c (fst x) (snd x) d) l ds /\
      text = header +++ join (nl +++ nl) ds.
Proof.
  intros s o c names k r Ho C H E.
  destruct (globals_done s o c Ho C names k r H E) as (_ & text & -> & l & ds & A). exists text, l, ds. split; auto.
Qed.
Print Assumptions C24_produced.

(** Closed: a field of a defined input object is a scalar or refers to a defined type *)
Theorem C24_closed : forall s names n t nm fs fn f, inputs_consistent s ->
  needed s names n -> get_type s n = Some t -> st_def t = TInputObject nm fs -> In (fn, f) fs ->
  (exists sc, ft_def (sf_type f) = FDScalar sc) \/
  (needed s names (ft_name (sf_type f)) /\ global_type s (ft_name (sf_type f))).
Proof.
  intros s names n t nm fs fn f C (r & I & L) G E If.
  destruct (C n t nm fs G E) as (_ & _ & Fok). specialize (Fok _ _ If). unfold input_field_ok in Fok.
  assert (T : forall a b x, leads s a b -> refers s b x -> leads s a x).
  { induction 1 as [a|a m b R _ IH]; intros Rx; [eapply leads_step; eauto; constructor|eapply leads_step; eauto]. }
  destruct (ft_def (sf_type f)) eqn:Ed; try contradiction; eauto; right.
  - split.
    + exists r. split; auto. eapply T; eauto. exists t. split; auto. exists nm, fs, fn, f. auto.
    + destruct Fok as (vs & Ev). unfold global_type. destruct (get_type s (ft_name (sf_type f))) as [u|]; [|discriminate].
      cbn in Ev. inversion Ev as [Ev']. exists u. rewrite Ev'. auto.
  - split.
    + exists r. split; auto. eapply T; eauto. exists t. split; auto. exists nm, fs, fn, f. auto.
    + destruct Fok as (nm' & fs' & Ev). unfold global_type. destruct (get_type s (ft_name (sf_type f))) as [u|]; [|discriminate].
      cbn in Ev. inversion Ev as [Ev']. exists u. rewrite Ev'. auto.
Qed.
Print Assumptions C24_closed.

(** The content does not depend on the iteration order of the hash maps *)
Theorem C24_order : forall s o o' c names k k' a b, order_ok o -> order_ok o' -> inputs_consistent s ->
  (forall n, In n names -> global_type s n) ->
  compile_globals k c o s names = Some a -> compile_globals k' c o' s names = Some b -> a = b.
Proof.
  intros s o o' c names k k' a b Ho Ho' C H E E'.
  destruct (globals_done s o c Ho C names k a H E) as (_ & x & -> & F).
  destruct (globals_done s o' c Ho' C names k' b H E') as (_ & y & -> & F').
  f_equal. eapply file_text_unique; eauto.
Qed.
Print Assumptions C24_order.

(** Loaded schemas whose input fields refer to input types satisfy the hypothesis *)
Theorem C24_loaded : forall js s, load_schema js = Ok s ->
  (forall n t nm fs fn f, get_type s n = Some t -> st_def t = TInputObject nm fs -> In (fn, f) fs -> input_field_ok s f) ->
  inputs_consistent s.
Proof.
  intros js s L H n t nm fs G E. destruct (loaded_input js s n t nm fs L G E) as (-> & N & _).
  split; auto. split; auto. intros fn f I. eapply H; eauto.
Qed.
Print Assumptions C24_loaded.

(** Non-vacuity: an input object with an enum field and a nested input object *)
Definition input_type (name : string) (fs : list jfield) : jtypedef :=
  {| jt_kind := "INPUT_OBJECT"; jt_name := name; jt_description := None; jt_possible_types := None;
     jt_input_fields := Some fs; jt_fields := None; jt_enum_values := None |}.
Definition enum_type (name : string) (vs : list string) : jtypedef :=
  {| jt_kind := "ENUM"; jt_name := name; jt_description := None; jt_possible_types := None;
     jt_input_fields := None; jt_fields := None; jt_enum_values := Some vs |}.
Definition input_schema : schema :=
  match load_schema [input_type "A" [plain_field "b" (named_type "INPUT_OBJECT" "B"); plain_field "i" (named_type "SCALAR" "Int")];
                     input_type "B" [plain_field "e" (nonnull (named_type "ENUM" "E"))];
                     enum_type "E" ["Y"; "X"]; enum_type "F" ["Z"]] with Ok s => s | Err _ => [] end.
Lemma input_schema_names n t : get_type input_schema n = Some t -> In n ["A"; "B"; "E"; "F"].
Proof.
  intros G. apply aget_In in G. cbn in G.
  repeat (destruct G as [G|G]; [inversion G; cbn; tauto|]). contradiction.
Qed.
Example C24_nonvacuous : inputs_consistent input_schema /\ global_type input_schema "A" /\ wellfounded input_schema "A" /\
  needed input_schema ["A"] "E" /\ ~ needed input_schema ["A"] "F".
Proof.
  assert (C : inputs_consistent input_schema).
  { intros n t nm fs G E. pose proof (input_schema_names n t G) as I. cbn in I.
    destruct I as [<-|[<-|[<-|[<-|[]]]]]; inversion G; subst; cbn in E; inversion E; subst; (split; [reflexivity|]);
      (split; [repeat constructor; cbn; intuition discriminate|]); intros fn f I; cbn in I;
      repeat (destruct I as [I|I]; [inversion I; subst; cbn; repeat eexists|]); contradiction. }
  split; auto. split. { eexists. split; [reflexivity|]. cbn. auto. }
  assert (RA : forall m, refers input_schema "A" m -> m = "B").
  { intros m (t & G & nm & fs & fn & f & E & I & En & K). inversion G; subst. cbn in E. inversion E; subst. cbn in I.
    destruct I as [I|[I|[]]]; inversion I; subst; cbn in *; auto. destruct K; discriminate. }
  assert (RB : forall m, refers input_schema "B" m -> m = "E").
  { intros m (t & G & nm & fs & fn & f & E & I & En & K). inversion G; subst. cbn in E. inversion E; subst. cbn in I.
    destruct I as [I|[]]; inversion I; subst; cbn in *; auto. }
  assert (RE : forall m, ~ refers input_schema "E" m).
  { intros m (t & G & nm & fs & fn & f & E & I & En & K). inversion G; subst. discriminate. }
  split.
  { constructor. intros m R. apply RA in R. subst. constructor. intros m R. apply RB in R. subst.
    constructor. intros m R. exfalso. eapply RE; eauto. }
  split.
  - exists "A". split; [cbn; auto|]. eapply leads_step with "B".
    { eexists. split; [reflexivity|]. do 4 eexists. split; [reflexivity|]. split; [left; reflexivity|]. split; [reflexivity|auto]. }
    eapply leads_step with "E"; [|constructor].
    eexists. split; [reflexivity|]. do 4 eexists. split; [reflexivity|]. split; [left; reflexivity|]. split; [reflexivity|auto].
  - intros (r & [<-|[]] & L). inversion L as [|? m ? R L1]; subst. apply RA in R. subst m.
    inversion L1 as [|? m ? R L2]; subst. apply RB in R. subst m. inversion L2 as [|? m ? R L3]; subst. eapply RE; eauto.
Qed.
