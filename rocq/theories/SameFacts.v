(** Decoding does not depend on the order of entries nor on unknown keys. *)
From Verif Require Export DecodeFacts.

Lemma same_json_rect' (Q : json -> json -> Prop) :
  Q JNull JNull -> (forall b, Q (JBool b) (JBool b)) -> (forall n, Q (JNat n) (JNat n)) -> (forall t, Q (JNum t) (JNum t)) ->
  (forall s, Q (JStr s) (JStr s)) ->
  (forall l l', Forall2 same_json l l' -> Forall2 Q l l' -> Q (JArr l) (JArr l')) ->
  (forall l m l', Permutation (filter knownb l) m -> Forall2 (fun x y => fst x = fst y /\ same_json (snd x) (snd y)) m (filter knownb l') ->
     Forall2 (fun x y => fst x = fst y /\ Q (snd x) (snd y)) m (filter knownb l') -> Q (JObj l) (JObj l')) ->
  forall j j', same_json j j' -> Q j j'.
Proof.
  intros H1 H2 H3 H4 H5 H6 H7. fix IH 3. intros j j' S. destruct S as [|b|n|t|s|l l' F|l m l' P F]; auto.
  - apply H6; [exact F|]. clear - F IH. induction F as [|x y l l' S F IF]; constructor; auto.
  - apply (H7 l m l'); [exact P|exact F|]. revert F. generalize (filter knownb l') as r. intros r F. clear - F IH. induction F as [|x y m r [E S] F IF]; constructor; auto.
Qed.

Lemma F2_len {A B} (R : A -> B -> Prop) l l' : Forall2 R l l' -> List.length l = List.length l'.
Proof. induction 1; cbn; congruence. Qed.

Lemma once_filter {A} k (l : list (string * A)) (p : string * A -> bool) : (forall v, p (k, v) = true) -> once k (filter p l) = once k l.
Proof.
  intros H. induction l as [|[k' v] l IH]; [reflexivity|]. cbn. destruct (String.eqb_spec k' k) as [->|N].
  - rewrite H. cbn. rewrite String.eqb_refl, IH. reflexivity.
  - destruct (p (k', v)); [|exact IH]. cbn. destruct (String.eqb_spec k' k); [contradiction|exact IH].
Qed.
Lemma once_perm {A} k (l l' : list (string * A)) : Permutation l l' -> once k l = once k l'.
Proof.
  induction 1 as [|[a v] l l' P IH|[a v] [b w] l|]; cbn; try congruence.
  - rewrite IH. reflexivity.
  - destruct (String.eqb_spec a k); destruct (String.eqb_spec b k); try reflexivity.
    destruct (once k l) as [[?|]|]; reflexivity.
Qed.
(** Related values at a key *)
Definition rel_opt (R : json -> json -> Prop) (a b : option (option json)) : Prop :=
  match a, b with
  | None, None => True
  | Some None, Some None => True
  | Some (Some v), Some (Some w) => R v w
  | _, _ => False
  end.
Lemma once_rel R k l l' : Forall2 (fun x y => fst x = fst y /\ R (snd x) (snd y)) l l' -> rel_opt R (once k l) (once k l').
Proof.
  induction 1 as [|[a v] [b w] l l' [E S] F IH]; [exact I|]. cbn in E. subst b. cbn. destruct (String.eqb a k); [|exact IH].
  destruct (once k l) as [[?|]|]; destruct (once k l') as [[?|]|]; cbn in IH; try contradiction; exact S || exact I.
Qed.
Lemma obj_rel R k l m l' : In k known_keys -> Permutation (filter knownb l) m ->
  Forall2 (fun x y => fst x = fst y /\ R (snd x) (snd y)) m (filter knownb l') -> rel_opt R (once k l) (once k l').
Proof.
  intros K P F. assert (X : forall v : json, knownb (k, v) = true).
  { intros v. unfold knownb. apply existsb_exists. exists k. split; [exact K|apply String.eqb_refl]. }
  rewrite <- (once_filter k l knownb X), <- (once_filter k l' knownb X), (once_perm k _ _ P). apply once_rel. exact F.
Qed.
Lemma arr_rel R k keys l l' : Forall2 R l l' -> rel_opt R (once k (combine keys l)) (once k (combine keys l')).
Proof.
  intros F. apply once_rel. revert keys. induction F as [|x y l l' S F IH]; intros [|a keys]; cbn; auto.
Qed.

Definition respects {A} (d : json -> option A) : Prop := forall j j', same_json j j' -> d j = d j'.

Lemma entries_rel keys j j' : same_json j j' -> incl keys known_keys ->
  match entries keys j, entries keys j' with
  | None, None => True
  | Some l, Some l' => forall k, In k keys -> rel_opt same_json (once k l) (once k l')
  | _, _ => False
  end.
Proof.
  intros S K. destruct S as [| | | | |l l' F|l m l' P F]; cbn; auto.
  - rewrite <- (F2_len _ _ _ F). destruct (Nat.eqb (List.length l) (List.length keys)); [|exact I]. intros k _. apply arr_rel. exact F.
  - intros k I. exact (obj_rel same_json k l m l' (K _ I) P F).
Qed.

Lemma req_same {A} (d : json -> option A) k l l' : respects d -> rel_opt same_json (once k l) (once k l') -> req d k l = req d k l'.
Proof.
  intros R H. unfold req. destruct (once k l) as [[v|]|]; destruct (once k l') as [[w|]|]; cbn in H; try contradiction; auto.
Qed.
Lemma opt_respects {A} (d : json -> option A) : respects d -> respects (d_opt d).
Proof. intros R j j' S. pose proof (R _ _ S) as E. destruct S; cbn; rewrite ?E; auto. Qed.
Lemma opt_same {A} (d : json -> option A) k l l' : respects d -> rel_opt same_json (once k l) (once k l') -> opt d k l = opt d k l'.
Proof.
  intros R H. unfold opt. destruct (once k l) as [[v|]|]; destruct (once k l') as [[w|]|]; cbn in H; try contradiction; auto.
  apply opt_respects; auto.
Qed.
Lemma list_respects {A} (d : json -> option A) : respects d -> respects (d_list d).
Proof.
  intros R j j' S. destruct S as [| | | | |l l' F|]; try reflexivity. cbn. induction F as [|x y l l' S F IH]; [reflexivity|].
  cbn. rewrite (R _ _ S), IH. reflexivity.
Qed.
Lemma str_respects : respects d_str. Proof. intros j j' []; reflexivity. Qed.
Lemma bool_respects : respects d_bool. Proof. intros j j' []; reflexivity. Qed.

Lemma type_respects : respects d_type.
Proof.
  intros j j' S. induction S as [| | | | |l l' F IH|l m l' P F IH] using same_json_rect'; try reflexivity; rewrite !d_type_eq.
  - cbn [entries]. rewrite <- (F2_len _ _ _ F). destruct (Nat.eqb (List.length l) (List.length type_keys)); [|reflexivity].
    rewrite (req_same d_str "kind" _ _ str_respects (arr_rel _ "kind" type_keys _ _ F)), (opt_same d_str "name" _ _ str_respects (arr_rel _ "name" type_keys _ _ F)).
    assert (X : opt d_type "ofType" (combine type_keys l) = opt d_type "ofType" (combine type_keys l')).
    { assert (B : Forall2 (fun x y => same_json x y /\ d_type x = d_type y) l l').
      { clear - F IH. induction F as [|x y l l' S F IF]; [constructor|]. inversion IH; subst. constructor; auto. }
      pose proof (arr_rel _ "ofType" type_keys _ _ B) as H. unfold opt. destruct (once "ofType" (combine type_keys l)) as [[v|]|];
        destruct (once "ofType" (combine type_keys l')) as [[w|]|]; cbn in H; try contradiction; auto.
      destruct H as [S E]. destruct S; cbn [d_opt]; rewrite ?E; reflexivity. }
    rewrite X. reflexivity.
  - cbn [entries].
    rewrite (req_same d_str "kind" _ _ str_respects (obj_rel same_json "kind" l m l' ltac:(cbn; tauto) P F)).
    rewrite (opt_same d_str "name" _ _ str_respects (obj_rel same_json "name" l m l' ltac:(cbn; tauto) P F)).
    assert (X : opt d_type "ofType" l = opt d_type "ofType" l').
    { assert (B : Forall2 (fun x y => fst x = fst y /\ (same_json (snd x) (snd y) /\ d_type (snd x) = d_type (snd y))) m (filter knownb l')).
      { revert F IH. generalize (filter knownb l') as r. intros r F IH. clear - F IH.
        induction F as [|x y m r S F IF]; [constructor|]. inversion IH; subst. constructor; [tauto|auto]. }
      pose proof (obj_rel (fun a b => same_json a b /\ d_type a = d_type b) "ofType" l m l' ltac:(cbn; tauto) P B) as H. unfold opt.
      destruct (once "ofType" l) as [[v|]|]; destruct (once "ofType" l') as [[w|]|]; cbn in H; try contradiction; auto.
      destruct H as [S E]. destruct S; cbn [d_opt]; rewrite ?E; reflexivity. }
    rewrite X. reflexivity.
Qed.

Ltac inclk := intros ? ?; cbn in *; tauto.
Lemma name_respects : respects d_name.
Proof.
  intros j j' S. unfold d_name. pose proof (entries_rel ["name"] j j' S ltac:(inclk)) as H.
  destruct (entries ["name"] j) as [l|]; destruct (entries ["name"] j') as [l'|]; try contradiction; [|reflexivity].
  apply req_same; [exact str_respects|]. apply H. cbn. auto.
Qed.
Lemma field_respects : respects d_field.
Proof.
  intros j j' S. unfold d_field. pose proof (entries_rel field_keys j j' S ltac:(inclk)) as H.
  destruct (entries field_keys j) as [l|]; destruct (entries field_keys j') as [l'|]; try contradiction; [|reflexivity].
  rewrite (req_same d_str "name" l l' str_respects (H "name" ltac:(cbn; tauto))), (opt_same d_str "description" l l' str_respects (H "description" ltac:(cbn; tauto))),
    (req_same d_type "type" l l' type_respects (H "type" ltac:(cbn; tauto))), (opt_same d_bool "isDeprecated" l l' bool_respects (H "isDeprecated" ltac:(cbn; tauto))).
  reflexivity.
Qed.
Lemma typedef_respects : respects d_typedef.
Proof.
  intros j j' S. unfold d_typedef. pose proof (entries_rel typedef_keys j j' S ltac:(inclk)) as H.
  destruct (entries typedef_keys j) as [l|]; destruct (entries typedef_keys j') as [l'|]; try contradiction; [|reflexivity].
  pose proof (list_respects _ name_respects) as Rn. pose proof (list_respects _ field_respects) as Rf.
  rewrite (req_same d_str "kind" l l' str_respects (H "kind" ltac:(cbn; tauto))), (req_same d_str "name" l l' str_respects (H "name" ltac:(cbn; tauto))),
    (opt_same d_str "description" l l' str_respects (H "description" ltac:(cbn; tauto))), (opt_same _ "possibleTypes" l l' Rn (H "possibleTypes" ltac:(cbn; tauto))),
    (opt_same _ "inputFields" l l' Rf (H "inputFields" ltac:(cbn; tauto))), (opt_same _ "fields" l l' Rf (H "fields" ltac:(cbn; tauto))),
    (opt_same _ "enumValues" l l' Rn (H "enumValues" ltac:(cbn; tauto))). reflexivity.
Qed.
Lemma within_respects {A} key (d : json -> option A) : In key known_keys -> respects d ->
  respects (fun j => match entries [key] j with None => None | Some l => req d key l end).
Proof.
  intros K R j j' S. pose proof (entries_rel [key] j j' S ltac:(intros ? [<-|[]]; exact K)) as H.
  destruct (entries [key] j) as [l|]; destruct (entries [key] j') as [l'|]; try contradiction; [|reflexivity].
  apply req_same; [exact R|]. apply H. left. reflexivity.
Qed.
Lemma schema_respects : respects d_schema.
Proof. apply within_respects; [cbn; tauto|]. apply within_respects; [cbn; tauto|]. apply within_respects; [cbn; tauto|]. apply list_respects, typedef_respects. Qed.
