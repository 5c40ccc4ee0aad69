(** Lemmas about requests of the download script: how they are quoted, read and understood. *)
From Verif Require Import SpecDownload LexFacts JsonFacts StringFacts GlayoutFacts PropC67.
From Coq Require Import Lia.

(** ** JSON.stringify *)
Lemma body_app a : forall b, body a -> body b -> body (a +++ b).
Proof. intros b H B. induction H; cbn; [exact B|apply body_plain; auto|eapply body_escape; eauto|apply body_hex; auto]. Qed.
Lemma spells_app a s : forall b t, spells a s -> spells b t -> spells (a +++ b) (s +++ t).
Proof. intros b t H B. induction H; cbn; rewrite ?sapp_assoc; [exact B|apply sp_plain; auto|eapply sp_escape; eauto|eapply sp_hex; eauto|eapply sp_pair; eauto]. Qed.
Lemma js_char_body c : body (js_char c) /\ spells (js_char c) (String c "").
Proof.
  unfold js_char. pose proof (nat_ascii_embedding (nat_of_ascii c)) as _. pose proof (ascii_nat_embedding c) as E.
  assert (K : forall x, In (x, c) escapes -> body (String (ascii_of_nat 92) (String x "")) /\ spells (String (ascii_of_nat 92) (String x "")) (String c "")).
  { intros x I. split; [apply (body_escape x c "" I), body_end|apply (sp_escape x c "" "" I), sp_end]. }
  repeat match goal with |- context [Nat.eqb (nat_of_ascii c) ?n] => destruct (Nat.eqb_spec (nat_of_ascii c) n) as [Q|];
    [cbn [orb]; rewrite Q in E; apply K; rewrite <- E; vm_compute; tauto|] end.
  cbn [orb]. destruct (Nat.ltb_spec (nat_of_ascii c) 32) as [L|L].
  - assert (V : forallb (fun n => match hex4 "0" "0" (hex_low (n / 16)) (hex_low (n mod 16)) with Some k => N.eqb k (N.of_nat n) | None => false end) (seq 0 32) = true) by (vm_compute; reflexivity).
    rewrite forallb_forall in V. specialize (V (nat_of_ascii c) ltac:(apply in_seq; lia)). cbn beta in V.
    destruct (hex4 _ _ _ _) as [k|] eqn:H; [|discriminate]. apply N.eqb_eq in V. subst k. apply hex4_spec in H.
    pose proof H as (x1 & x2 & x3 & x4 & V1 & V2 & V3 & V4 & _). split; [apply body_hex; try (eexists; eauto); constructor|].
    apply (sp_hex _ _ _ _ (N.of_nat (nat_of_ascii c)) (String c "") "" ""); [exact H|left; lia| |constructor].
    replace (String c "") with (octet (N.of_nat (nat_of_ascii c))); [constructor; lia|]. unfold octet. f_equal.
    exact E.
  - assert (P : plain_char c).
    { split; [exact L|]. split; intros ->; repeat match goal with H : nat_of_ascii _ <> _ |- False => first [apply H; reflexivity | clear H] end. }
    split; constructor; auto; constructor.
Qed.
Lemma js_body_ok s : body (js_body s) /\ spells (js_body s) s.
Proof.
  induction s as [|c s [B S]]; [split; constructor|]. cbn [js_body]. destruct (js_char_body c) as [Bc Sc].
  split; [apply body_app; auto|]. exact (spells_app _ _ _ _ Sc S).
Qed.
Lemma object_text k s : unicode k -> unicode s -> text_holds ("{" +++ js_quote k +++ ":" +++ js_quote s +++ "}") (JObj [(k, JStr s)]).
Proof.
  intros U V. destruct (js_body_ok k) as [Bk Sk]. destruct (js_body_ok s) as [Bs Ss].
  exists (RObj [(js_body k, RStr (js_body s))]). split.
  - eexists "", _, "". split; [|split; [exact I|split; [|exact I]]].
    2:{ apply wr_obj, (mb_one _ _ _ "" "" "" "" I Bk I I (wr_str _ Bs) I). }
    unfold js_quote. rewrite ?sapp_assoc, ?sapp_nil_r. reflexivity.
  - constructor. repeat constructor; auto.
Qed.

(** ** What is asked for *)
Lemma fields_once : NoDup (List.map fst introspection_fields) /\ forall ty fs, In (ty, fs) introspection_fields -> NoDup (List.map fst fs).
Proof.
  split; [cbn; repeat constructor; cbn; intuition discriminate|]. intros ty fs I. cbn in I.
  repeat (destruct I as [I|I]; [injection I as <- <-; cbn; repeat constructor; cbn; intuition discriminate|]). destruct I.
Qed.
Lemma nodup_assoc {B} (l : list (string * B)) k x y : NoDup (List.map fst l) -> In (k, x) l -> In (k, y) l -> x = y.
Proof.
  induction l as [|[k' z] l IH]; intros N I J; [destruct I|]. cbn in N. inversion N; subst. destruct I as [I|I], J as [J|J]; try congruence; auto.
  - injection I as -> ->. exfalso. apply H1. apply in_map_iff. exists (k, y). auto.
  - injection J as -> ->. exfalso. apply H1. apply in_map_iff. exists (k, x). auto.
Qed.
Lemma frag_once ds f g : NoDup (frag_names ds) -> In (DFrag f) ds -> In (DFrag g) ds -> fr_name f = fr_name g -> f = g.
Proof.
  unfold frag_names. induction ds as [|d ds IH]; intros N I J E; [destruct I|]. cbn [flat_map] in N.
  assert (K : forall h, In (DFrag h) ds -> In (fr_name h) (flat_map (fun d => match d with DFrag f => [fr_name f] | DOp _ => [] end) ds)).
  { intros h H. apply in_flat_map. exists (DFrag h). cbn. auto. }
  destruct I as [->|I], J as [J|J].
  - congruence.
  - exfalso. inversion N; subst. apply H1. rewrite E. apply K, J.
  - exfalso. subst d. inversion N; subst. apply H1. rewrite <- E. apply K, I.
  - apply IH; auto. destruct d; cbn in N; [exact N|inversion N; auto].
Qed.
Lemma flag_one a b c : flag_args a b -> flag_args a c -> b = c.
Proof. intros H K. inversion H; subst; inversion K; auto; discriminate. Qed.
Lemma asked_one ds : NoDup (frag_names ds) -> forall ty l q, asked ds ty l q -> forall q', asked ds ty l q' -> q = q'.
Proof.
  intros N ty l q H. destruct fields_once as [Nt Nf]. induction H as [| | |ty f p ys rest xs I C A IHa R IHr|]; intros q' K; inversion K; subst; auto.
  - f_equal; auto.
  - assert (fs0 = fs) by (eapply nodup_assoc; [exact Nt| |]; eauto). subst fs0.
    match goal with A : In (n, Some ?x) fs, B : In (n, Some ty') fs |- _ => assert (X : Some x = Some ty') by (eapply nodup_assoc; [eapply Nf| |]; eauto); injection X as -> end.
    f_equal; [f_equal|]; auto. eapply flag_one; eauto.
  - match goal with A : In (DFrag ?g) ds, B : fr_name ?g = fr_name f |- _ => assert (g = f) by (eapply frag_once; eauto); subst g end. f_equal; auto.
  - f_equal; auto.
Qed.
Lemma the_query_one ds l l' : the_query ds l -> the_query ds l' -> l = l'.
Proof. intros H K. inversion H; inversion K; subst; congruence. Qed.

(** Checks *)
Definition pick {B} (k : string) (l : list (string * B)) : option (string * B) := find (fun x => String.eqb (fst x) k) l.
Lemma pick_in {B} k (l : list (string * B)) x : pick k l = Some x -> In (k, snd x) l.
Proof. unfold pick. intros H. pose proof (find_some _ _ H) as [I E]. apply String.eqb_eq in E. subst k. destruct x. exact I. Qed.
Definition flag_of (a : arguments) : option bool :=
  match a with
  | [] => Some false
  | [(n, v)] => if String.eqb n "includeDeprecated" then (if String.eqb v "true" then Some true else if String.eqb v "false" then Some false else None) else None
  | _ => None
  end.
Lemma flag_of_ok a b : flag_of a = Some b -> flag_args a b.
Proof.
  destruct a as [|[n v] [|]]; cbn; try discriminate; [intros H; injection H as <-; constructor|].
  destruct (String.eqb_spec n "includeDeprecated") as [->|]; [|discriminate]. destruct (String.eqb_spec v "true") as [->|]; [intros H; injection H as <-; constructor|].
  destruct (String.eqb_spec v "false") as [->|]; [|discriminate]. intros H. injection H as <-. constructor.
Qed.
Fixpoint frag_of (n : string) (ds : document) : option fragdef :=
  match ds with
  | [] => None
  | DFrag f :: ds => if String.eqb (fr_name f) n then Some f else frag_of n ds
  | _ :: ds => frag_of n ds
  end.
Lemma frag_of_ok n ds f : frag_of n ds = Some f -> In (DFrag f) ds /\ fr_name f = n.
Proof.
  induction ds as [|[o|g] ds IH]; cbn; [discriminate| |].
  - intros H. apply IH in H. tauto.
  - destruct (String.eqb_spec (fr_name g) n) as [E|]; [intros H; injection H as <-; auto|]. intros H. apply IH in H. tauto.
Qed.
Fixpoint ask (fuel : nat) (ds : document) (ty : string) (l : list selection) : option (list isel) :=
  match fuel with
  | O => None
  | S fuel =>
      match l with
      | [] => Some []
      | x :: rest =>
          match ask fuel ds ty rest with
          | None => None
          | Some xs =>
              match x with
              | SField _ None n args [] sub =>
                  match pick ty introspection_fields with
                  | None => None
                  | Some (_, fs) =>
                      match pick n fs, sub with
                      | Some (_, None), [] => match args with [] => Some (IS n false [] :: xs) | _ => None end
                      | Some (_, Some ty'), _ :: _ =>
                          match flag_of args, ask fuel ds ty' sub with Some old, Some ys => Some (IS n old ys :: xs) | _, _ => None end
                      | _, _ => None
                      end
                  end
              | SSpread _ n [] =>
                  match frag_of n ds with
                  | Some f => if String.eqb (fr_cond f) ty then match ask fuel ds ty (fr_sels f) with Some ys => Some (ys ++ xs) | None => None end else None
                  | None => None
                  end
              | _ => None
              end
          end
      end
  end.
Lemma ask_ok fuel ds : forall ty l q, ask fuel ds ty l = Some q -> asked ds ty l q.
Proof.
  induction fuel as [|fuel IH]; intros ty l q H; [discriminate|]. cbn [ask] in H. destruct l as [|x rest]; [injection H as <-; constructor|].
  destruct (ask fuel ds ty rest) as [xs|] eqn:R; [|discriminate]. apply IH in R. destruct x as [p [al|] n args [|] sub|p n [|]|]; try discriminate.
  - destruct (pick ty introspection_fields) as [[ty0 fs]|] eqn:P; [|discriminate]. apply pick_in in P. cbn [snd] in P.
    destruct (pick n fs) as [[n0 [ty'|]]|] eqn:F; try discriminate; apply pick_in in F; cbn [snd] in F.
    + destruct sub as [|x sub]; [discriminate|]. destruct (flag_of args) as [old|] eqn:A; [|discriminate]. destruct (ask fuel ds ty' (x :: sub)) as [ys|] eqn:Y; [|discriminate].
      injection H as <-. eapply as_sub; eauto using flag_of_ok.
    + destruct sub; [|discriminate]. destruct args; [|discriminate]. injection H as <-. eapply as_leaf; eauto.
  - destruct (frag_of n ds) as [f|] eqn:F; [|discriminate]. apply frag_of_ok in F. destruct F as [I <-]. destruct (String.eqb_spec (fr_cond f) ty) as [E|]; [|discriminate].
    destruct (ask fuel ds ty (fr_sels f)) as [ys|] eqn:Y; [|discriminate]. injection H as <-. apply as_spread; auto.
Qed.
