(** C25: enum definitions. *)
From Verif Require Import GlobalText PropC24.

(** One member NAME = "NAME" for each value of the enum, in sorted order *)
Theorem C25_enum : forall c n t vs d, st_def t = TEnum vs -> def_text c n t d ->
  exists ws, Permutation vs ws /\ (Forall plain_name vs -> sorted_by (fun v => v) ws) /\
    d = compile_documentation (st_doc t) false 0 +++ "export enum " +++ n +++ " {" +++ nl
        +++ join nl (List.map (fun v => "  " +++ v +++ " = " +++ dq +++ v +++ dq +++ ",") ws) +++ nl +++ "}".
Proof.
  intros c n t vs d E H. inversion H as [vs' ws E' Pm S0|fields fs ls E' Pm S0 F]; subst; [|congruence].
  rewrite E in E'. inversion E'; subst vs'. exists ws. split; auto. split; [|reflexivity].
  intros Pn. apply members_sorted; auto. rewrite Forall_forall in *. intros v I. apply Pn.
  apply (Permutation_in _ (Permutation_sym Pm)). auto.
Qed.
Print Assumptions C25_enum.

(** ... and a loaded enum has the values of its declaration *)
Theorem C25_values : forall js s n t vs, load_schema js = Ok s -> get_type s n = Some t -> st_def t = TEnum vs ->
  exists j, last_named jt_name n js j /\ jt_kind j = "ENUM" /\ jt_enum_values j = Some vs /\ st_doc t = jt_description j.
Proof.
  intros js s n t vs L G E. destruct (load_ok _ _ L) as (_ & La & No).
  destruct (named_dec jt_name n js) as [N|(j & Lj)]; [rewrite (No n N) in G; discriminate|].
  destruct (La n j Lj) as (t' & G' & D & M). rewrite G in G'. inversion G'; subst t'.
  exists j. split; auto. rewrite E in M. inversion M; subst. auto.
Qed.
Print Assumptions C25_values.

(** Every enum the file must define has such a definition in it *)
Theorem C25_present : forall s o c names k text n t vs, order_ok o -> inputs_consistent s ->
  (forall n, In n names -> global_type s n) -> compile_globals k c o s names = Some (Ok text) ->
  needed s names n -> get_type s n = Some t -> st_def t = TEnum vs ->
  exists a b ws, text = a +++ compile_documentation (st_doc t) false 0 +++ "export enum " +++ n +++ " {" +++ nl
        +++ join nl (List.map (fun v => "  " +++ v +++ " = " +++ dq +++ v +++ dq +++ ",") ws) +++ nl +++ "}" +++ b /\
    Permutation vs ws /\ (Forall plain_name vs -> sorted_by (fun v => v) ws).
Proof.
  intros s o c names k text n t vs Ho C H E Nd G Ev.
  destruct (globals_done s o c Ho C names k _ H E) as (_ & x & Ex & l & ds & _ & _ & K & F & ->). inversion Ex; subst.
  assert (I : In (n, t) l) by (apply K; auto).
  destruct (Forall2_in_l _ _ _ _ F I) as (d & Id & Td). cbn in Td.
  destruct (C25_enum c n t vs d Ev Td) as (ws & Pm & S0 & ->).
  assert (J : forall sep (l : list string) x, In x l -> exists a b, join sep l = a +++ x +++ b).
  { clear. intros sep. unfold join. induction l as [|y l IH]; intros x; [intros []|]. intros [<-|I].
    - exists "". destruct l; [exists ""; cbn; rewrite sapp_nil_r; auto|]. eexists. cbn. reflexivity.
    - destruct (IH x I) as (a & b & Eq). destruct l as [|z l]; [contradiction|].
      exists (y +++ sep +++ a), b. change (String.concat sep (y :: z :: l)) with (y +++ sep +++ String.concat sep (z :: l)).
      rewrite Eq, !sapp_assoc. auto. }
  destruct (J (nl +++ nl) ds _ Id) as (a & b & Eq). exists (header +++ a), b, ws. split; auto.
  change (header +++ join (nl +++ nl) ds = (header +++ a) +++ compile_documentation (st_doc t) false 0 +++ "export enum " +++ n +++ " {" +++ nl
        +++ join nl (List.map (fun v => "  " +++ v +++ " = " +++ dq +++ v +++ dq +++ ",") ws) +++ nl +++ "}" +++ b).
  rewrite Eq, !sapp_assoc. reflexivity.
Qed.
Print Assumptions C25_present.

(** Non-vacuity *)
Example C25_nonvacuous : Forall plain_name ["Y"; "X"] /\
  enum_def "E" None ["Y"; "X"] = "export enum E {" +++ nl +++ "  X = " +++ dq +++ "X" +++ dq +++ "," +++ nl
    +++ "  Y = " +++ dq +++ "Y" +++ dq +++ "," +++ nl +++ "}".
Proof. split; [repeat constructor|reflexivity]. Qed.
Example C25_nonvacuous_needed : exists t, get_type input_schema "E" = Some t /\ st_def t = TEnum ["Y"; "X"] /\
  inputs_consistent input_schema /\ needed input_schema ["A"] "E".
Proof. eexists. split; [reflexivity|]. split; [reflexivity|]. split; apply C24_nonvacuous. Qed.
