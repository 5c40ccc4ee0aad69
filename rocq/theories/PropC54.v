(** C54: the globals file is TypeScript and declares exactly the needed types of the introspection data. *)
From Verif Require Import GlobalRead JsonCheck SelWorlds PropC24 Worlds.

(** With usable names in the introspection data, the file reads as one statement per needed type, sorted
    by name: an enum with the declared values, or a type with a property per declared field whose
    optionality and values are those of the field's type reference ([stmt_for]) *)
Theorem C54_partial : forall js s o c names k text,
  load_schema js = Ok s -> order_ok o -> inputs_consistent s -> (forall n, In n names -> global_type s n) ->
  json_nameable c js -> compile_globals k c o s names = Some (Ok text) ->
  exists (l : list (string * jtypedef)) items,
    NoDup (List.map fst l) /\ sorted_by fst l /\
    (forall n j, In (n, j) l <-> needed s names n /\ last_named jt_name n js j) /\
    Forall2 (fun x it => stmt_for c (fst x) (snd x) it) l items /\
    forall is, read_module text is <-> is = items.
Proof.
  intros js s o c names k text L O C G J E.
  destruct (globals_done s o c O C names k _ G E) as (_ & text' & E' & F). injection E' as <-.
  destruct (file_reads c s (loaded_nameable _ _ _ L J) (loaded_globals_nameable _ _ _ L J) C names text F) as (l & items & N & So & K & D & R).
  assert (X : exists l' : list (string * jtypedef), List.map fst l' = List.map fst l /\
            Forall2 (fun x y => fst x = fst y /\ last_named jt_name (fst x) js (snd y)) l l').
  { clear - K L. assert (G : forall n t, In (n, t) l -> get_type s n = Some t) by (intros n t I; apply K in I; tauto). clear K.
    induction l as [|[n t] l IH]; [exists []; split; constructor|].
    destruct IH as (l' & E & F); [intros; apply G; right; auto|]. destruct (loaded_last _ _ _ _ L (G n t (or_introl eq_refl))) as (j & Lj & _).
    exists ((n, j) :: l'). split; [cbn; congruence|]. constructor; auto. }
  destruct X as (l' & El & Fl). exists l', items. split; [congruence|]. split.
  { clear - So El. revert l' El. induction So as [|x l S1 IH Fx]; intros [|y l'] El; try discriminate; [constructor|]. cbn in El. injection El as E1 E2.
    constructor; [apply IH; auto|]. rewrite Forall_forall in *. intros z I. apply (in_map fst) in I. rewrite E2 in I. apply in_map_iff in I.
    destruct I as (u & Eu & I). rewrite E1, <- Eu. auto. }
  split; [|split; [|exact R]].
  - intros n j. split.
    + intros I. assert (X : exists t, In (n, t) l /\ last_named jt_name n js j).
      { clear - Fl I. induction Fl as [|[a t] [b j'] l l' [E1 E2] F IH]; [destruct I|]. cbn [fst snd] in *. subst. destruct I as [I|I].
        - injection I as -> ->. exists t. split; [left; auto|auto].
        - destruct (IH I) as (t' & I' & X). exists t'. split; [right|]; auto. }
      destruct X as (t & It & Lj). apply K in It. tauto.
    + intros [Nd Lj]. destruct (needed_global s C names G n Nd) as (t & Gt & _). assert (I : In (n, t) l) by (apply K; auto).
      clear - Fl I Lj. induction Fl as [|[a u] [b j'] l l' [E1 E2] F IH]; [destruct I|]. cbn [fst snd] in *. subst. destruct I as [I|I].
      * injection I as -> ->. left. f_equal. eapply last_fun; eauto.
      * right. auto.
  - assert (G' : forall n t, In (n, t) l -> get_type s n = Some t) by (intros n t I; apply K in I; tauto).
    clear - D Fl G' L. revert items D. induction Fl as [|[a t] [b j'] l l' [E1 E2] F IH]; intros items D; inversion D; subst; constructor.
    + cbn [fst snd] in *. subst. eapply def_stmt; eauto. apply G'. left. auto.
    + apply IH; auto. intros; apply G'; right; auto.
Qed.
Print Assumptions C54_partial.

(** The example of C24: the file for A reads as a type for A, a type for B and an enum *)
Definition input_json : jschema :=
  [input_type "A" [plain_field "b" (named_type "INPUT_OBJECT" "B"); plain_field "i" (named_type "SCALAR" "Int")];
   input_type "B" [plain_field "e" (nonnull (named_type "ENUM" "E"))]; enum_type "E" ["Y"; "X"]; enum_type "F" ["Z"]].
Definition global_config : cconfig := cconfig_of (merge_config 4 no_args config_default).
Definition field (n : string) (opt : bool) (e : texpr) : member :=
  {| m_comment := ""; m_readonly := false; m_name := n; m_optional := opt; m_type := e |}.
Example C54_nonvacuous : exists text, load_schema input_json = Ok input_schema /\ inputs_consistent input_schema /\
  global_type input_schema "A" /\ json_nameable global_config input_json /\
  compile_globals 20 global_config plain_order input_schema ["A"] = Some (Ok text) /\
  forall is, read_module text is <->
    is = [ItType (DObj "A" [field "b" true (XUnion (XName "B") XNull);
                            field "i" true (XUnion (XName "number") XNull)]);
          ItType (DObj "B" [field "e" false (XName "E")]); ItEnum "E" [("X", "X"); ("Y", "Y")]].
Proof.
  eexists. split; [reflexivity|]. split; [apply C24_nonvacuous|]. split; [apply C24_nonvacuous|].
  split; [apply json_nameableb_ok; vm_compute; reflexivity|]. split; [vm_compute; reflexivity|].
  apply (reads_once 2000). vm_compute. reflexivity.
Qed.

(** *** Without usable names *)
(** A description that ends its comment adds a statement *)
Definition spoof : string := "**//export type Injected = any;//**".
Definition spoof_json (d : option string) (n : string) : jschema :=
  [{| jt_kind := "ENUM"; jt_name := n; jt_description := d; jt_possible_types := None;
      jt_input_fields := None; jt_fields := None; jt_enum_values := Some ["X"] |}].
Theorem C54_injected : exists s text, load_schema (spoof_json (Some spoof) "E") = Ok s /\ inputs_consistent s /\ global_type s "E" /\
  compile_globals 20 global_config plain_order s ["E"] = Some (Ok text) /\
  forall is, read_module text is <-> is = [ItType (DAlias "Injected" ["any"]); ItEnum "E" [("X", "X")]].
Proof.
  do 2 eexists. split; [vm_compute; reflexivity|]. split.
  { intros n t nm fs G E. apply aget_In in G. destruct G as [G|[]]. injection G as <- <-. discriminate. }
  split; [eexists; split; [reflexivity|exact I]|]. split; [vm_compute; reflexivity|].
  apply (reads_once 2000). vm_compute. reflexivity.
Qed.
Print Assumptions C54_injected.

(** An enum named after a predefined type: the file is not TypeScript at all *)
Theorem C54_refuted : exists s text, load_schema (spoof_json None "string") = Ok s /\ inputs_consistent s /\ global_type s "string" /\
  gname "string" /\ compile_globals 20 global_config plain_order s ["string"] = Some (Ok text) /\
  forall is, ~ read_module text is.
Proof.
  do 2 eexists. split; [vm_compute; reflexivity|]. split.
  { intros n t nm fs G E. apply aget_In in G. destruct G as [G|[]]. injection G as <- <-. discriminate. }
  split; [eexists; split; [reflexivity|exact I]|]. split; [apply gnameb_ok; reflexivity|]. split; [vm_compute; reflexivity|].
  apply (never_reads 2000 60). eexists. split; [vm_compute; reflexivity|]. intros k. vm_compute. reflexivity.
Qed.
Print Assumptions C54_refuted.
