(** Reading back the text of a module tree. *)
From Verif Require Export SpecRead DocFacts.

(** ** Well-formed trees *)
Fixpoint str_ok (s : string) : bool :=
  match s with EmptyString => true | String c s' => negb (str_stop c) && str_ok s' end.
Fixpoint blanks (s : string) : bool :=
  match s with EmptyString => true | String c s' => white c && blanks s' end.
Definition comment_ok (t : string) : Prop :=
  t = "" \/ exists w, blanks w = true /\ forall rest, comment_then (t +++ rest) (w +++ rest).
Fixpoint texpr_ok (e : texpr) : Prop :=
  match e with
  | XName n => ref_name n = true
  | XLit s => str_ok s = true
  | XNull => True
  | XArr e => texpr_ok e /\ is_union e = false
  | XUnion a b => texpr_ok a /\ texpr_ok b /\ is_union b = false
  | XParen e => texpr_ok e
  end.
Definition member_ok (m : member) : Prop :=
  comment_ok (m_comment m) /\ ident (m_name m) = true /\ texpr_ok (m_type m).
Definition all_named (ok : string -> bool) (l : list string) : Prop := l <> [] /\ forall n, In n l -> ok n = true.
Definition decl_ok (d : decl) : Prop :=
  match d with
  | DObj n ms => binder n = true /\ forall m, In m ms -> member_ok m
  | DAlias n alts => binder n = true /\ all_named ref_name alts
  end.
Definition tsfile_ok (m : tsfile) : Prop :=
  binder (tf_node m) = true /\ str_ok (tf_node_from m) = true /\
  (forall n, In n (tf_globals m) -> binder n = true) /\ str_ok (tf_globals_from m) = true /\
  (forall d, In d (tf_decls m) -> decl_ok d) /\ tf_decls m <> [] /\ all_named ref_name (tf_args m).

(** ** Names *)
Lemma plain_app a b : snd (span_name (a +++ b)) = "" <-> snd (span_name a) = "" /\ snd (span_name b) = "".
Proof.
  induction a as [|c a IH]; cbn; [tauto|]. destruct (name_char c); [|cbn; split; [discriminate|intros [? _]; discriminate]].
  destruct (span_name (a +++ b)) as [x y] eqn:E1, (span_name a) as [x' y'] eqn:E2. cbn in *. exact IH.
Qed.
Lemma dot_parts_plain s : forall acc, (forall x, In x (dot_parts acc s) -> snd (span_name x) = "") ->
  snd (span_name (acc +++ s)) = "".
Proof.
  induction s as [|c s IH]; intros acc H; cbn [dot_parts] in H.
  - rewrite sapp_nil_r. apply H. left. auto.
  - destruct (nat_of_ascii c =? 46) eqn:E.
    + apply plain_app. split; [apply H; left; auto|]. change (String c s) with (String c "" +++ s). apply plain_app. split.
      * cbn. unfold name_char. apply Nat.eqb_eq in E. rewrite E. reflexivity.
      * change s with ("" +++ s). apply IH. intros x I. apply H. right. auto.
    + rewrite <- (IH (acc +++ String c "")); [|auto]. rewrite sapp_assoc. reflexivity.
Qed.
Lemma ident_plain n : ident n = true -> n <> "" /\ snd (span_name n) = "".
Proof.
  destruct n as [|c n]; [discriminate|]. cbn [ident]. rewrite !andb_true_iff. intros [[_ H] _].
  split; [discriminate|]. destruct (snd _); [auto|discriminate].
Qed.
Lemma qualified_plain n : qualified n = true -> n <> "" /\ snd (span_name n) = "".
Proof.
  unfold qualified. intros H. split.
  - intros ->. discriminate.
  - change n with ("" +++ n). apply dot_parts_plain. intros x I. rewrite forallb_forall in H. apply ident_plain. auto.
Qed.
Lemma ident_qualified n : ident n = true -> qualified n = true.
Proof.
  intros H. unfold qualified.
  assert (E : forall s acc, no_dot s = true -> dot_parts acc s = [acc +++ s]).
  { induction s as [|c s IH]; intros acc N; cbn in *; [rewrite sapp_nil_r; auto|].
    apply andb_true_iff in N. destruct N as [N1 N2]. apply negb_true_iff in N1. rewrite N1.
    rewrite IH by auto. rewrite sapp_assoc. reflexivity. }
  rewrite E. { cbn. rewrite H. auto. }
  destruct n; [discriminate|]. cbn [ident] in H. apply andb_true_iff in H. tauto.
Qed.
Lemma existsb_app_false {A} (f : A -> bool) l l' : existsb f (l ++ l') = false -> existsb f l = false.
Proof. rewrite existsb_app, orb_false_iff. tauto. Qed.
Lemma binder_ref n : binder n = true -> ref_name n = true.
Proof.
  unfold binder, ref_name. rewrite !andb_true_iff, !negb_true_iff. intros [A B]. split; [apply ident_qualified; auto|].
  eapply existsb_app_false; eauto.
Qed.
Lemma ref_plain n : ref_name n = true -> n <> "" /\ snd (span_name n) = "".
Proof. unfold ref_name. rewrite andb_true_iff. intros [A _]. apply qualified_plain. auto. Qed.
Lemma binder_plain n : binder n = true -> n <> "" /\ snd (span_name n) = "".
Proof. intros. apply ref_plain, binder_ref. auto. Qed.
Lemma ref_not_null n : ref_name n = true -> String.eqb n "null" = false.
Proof.
  unfold ref_name. rewrite andb_true_iff. intros [_ B]. destruct (String.eqb n "null") eqn:E; auto.
  apply String.eqb_eq in E. subst. discriminate.
Qed.

(** ** Lexing *)
Lemma lex_S f s : lex (S f) s =
  match s with
  | EmptyString => Some []
  | String c s' =>
      if white c then lex f s'
      else if name_char c then let (n, r) := span_name s in ocons (TId n) (lex f r)
      else if nat_of_ascii c =? 34 then
        match span_str s' with Some (l, r) => ocons (TStr l) (lex f r) | None => None end
      else if Ascii.eqb c "/" then
        match s' with
        | String d s'' =>
            if Ascii.eqb d "/" then lex f (after_line s'')
            else if Ascii.eqb d "*" then
              match after_close s'' with Some r => lex f r | None => None end
            else None
        | EmptyString => None
        end
      else match punct_of c with Some p => ocons (TP p) (lex f s') | None => None end
  end.
Proof. reflexivity. Qed.
Lemma ocons_some {A} (a : A) x l : ocons a x = Some l -> exists l', x = Some l' /\ l = a :: l'.
Proof. destruct x; cbn; [|discriminate]. intros H. inversion H. eauto. Qed.

Lemma lex_mono f : forall s ts, lex f s = Some ts -> lex (S f) s = Some ts.
Proof.
  induction f as [|f IH]; intros s ts H; [discriminate|]. rewrite lex_S in H. rewrite lex_S.
  destruct s as [|c s']; auto. destruct (white c); auto. destruct (name_char c).
  { destruct (span_name (String c s')) as [n r]. apply ocons_some in H. destruct H as (l & E & ->). rewrite (IH _ _ E). auto. }
  destruct (nat_of_ascii c =? 34).
  { destruct (span_str s') as [[l r]|]; [|discriminate]. apply ocons_some in H. destruct H as (l' & E & ->). rewrite (IH _ _ E). auto. }
  destruct (Ascii.eqb c "/").
  { destruct s' as [|d s'']; [discriminate|]. destruct (Ascii.eqb d "/"); auto. destruct (Ascii.eqb d "*"); [|discriminate].
    destruct (after_close s''); [auto|discriminate]. }
  destruct (punct_of c); [|discriminate]. apply ocons_some in H. destruct H as (l' & E & ->). rewrite (IH _ _ E). auto.
Qed.
Lemma lex_le f g s ts : f <= g -> lex f s = Some ts -> lex g s = Some ts.
Proof. induction 1; auto. intros H1. apply lex_mono. auto. Qed.
Lemma lexes_functional s ts ts' : lexes s ts -> lexes s ts' -> ts = ts'.
Proof.
  intros [f H] [g H']. apply (lex_le f (f + g)) in H; [|lia]. apply (lex_le g (f + g)) in H'; [|lia]. congruence.
Qed.

Lemma lexes_nil : lexes "" [].
Proof. exists 1. reflexivity. Qed.
Lemma lexes_blank c r ts : white c = true -> lexes r ts -> lexes (String c r) ts.
Proof. intros B [f H]. exists (S f). rewrite lex_S, B. auto. Qed.
Lemma lexes_blanks w r ts : blanks w = true -> lexes r ts -> lexes (w +++ r) ts.
Proof.
  induction w as [|c w IH]; cbn; auto. rewrite andb_true_iff. intros [B Bs] H. apply lexes_blank; auto.
Qed.
Lemma name_not_blank c : name_char c = true -> white c = false.
Proof.
  destruct c as [b0 b1 b2 b3 b4 b5 b6 b7].
  destruct b0, b1, b2, b3, b4, b5, b6, b7; intros H; first [discriminate H | reflexivity].
Qed.
Lemma lexes_id n r ts : n <> "" -> snd (span_name n) = "" -> stops r -> lexes r ts -> lexes (n +++ r) (TId n :: ts).
Proof.
  intros N P St [f H]. exists (S f). rewrite lex_S. destruct n as [|c n]; [congruence|].
  assert (Nc : name_char c = true). { cbn in P. destruct (name_char c); [auto|discriminate]. }
  change (String c n +++ r) with (String c (n +++ r)). cbn match.
  rewrite (name_not_blank c Nc), Nc. change (String c (n +++ r)) with (String c n +++ r).
  rewrite span_name_app by auto. rewrite H. reflexivity.
Qed.
Lemma span_str_app l r : str_ok l = true -> span_str (l +++ dq +++ r) = Some (l, r).
Proof.
  induction l as [|c l IH]; intros H.
  - reflexivity.
  - cbn [str_ok] in H. apply andb_true_iff in H. destruct H as [H1 H2]. apply negb_true_iff in H1.
    cbn [String.append span_str]. rewrite H1, (IH H2).
    assert (X : (nat_of_ascii c =? 34) = false). { unfold str_stop in H1. destruct (nat_of_ascii c =? 34); [discriminate|auto]. }
    rewrite X. reflexivity.
Qed.
Lemma lexes_str l r ts : str_ok l = true -> lexes r ts -> lexes (dq +++ l +++ dq +++ r) (TStr l :: ts).
Proof.
  intros Ok [f H]. exists (S f). rewrite lex_S. unfold dq at 1. cbn [String.append].
  change (white (ascii_of_nat 34)) with false. change (name_char (ascii_of_nat 34)) with false.
  change (nat_of_ascii (ascii_of_nat 34) =? 34) with true. cbn match. rewrite span_str_app by auto. rewrite H. reflexivity.
Qed.
Lemma after_close_app b rest : has_close (b +++ "*") = false -> after_close (b +++ "*/" +++ rest) = Some rest.
Proof.
  induction b as [|c b IH]; intros H; [reflexivity|].
  cbn [String.append after_close]. cbn [String.append has_close] in H.
  destruct (Ascii.eqb c "*") eqn:E.
  - destruct b as [|d b].
    + cbn. reflexivity.
    + cbn [String.append]. cbn [String.append] in H, IH. destruct (Ascii.eqb d "/") eqn:E2.
      * exfalso. apply Ascii.eqb_eq in E, E2. subst. cbn in H. discriminate.
      * apply IH. apply orb_false_iff in H. tauto.
  - apply IH. apply orb_false_iff in H. tauto.
Qed.
Lemma lexes_comment s r ts : comment_then s r -> lexes r ts -> lexes s ts.
Proof.
  intros (b & -> & N) [f H]. exists (S f). rewrite lex_S. cbn [String.append].
  change (white "/") with false. change (name_char "/") with false. change (nat_of_ascii "/" =? 34) with false.
  change (Ascii.eqb "/" "/") with true. change (Ascii.eqb "*" "/") with false. change (Ascii.eqb "*" "*") with true. cbn match.
  change (String "*" (String "/" r)) with ("*/" +++ r). rewrite after_close_app; [auto|]. apply has_close_false. auto.
Qed.
Lemma lexes_comment_ok t r ts : comment_ok t -> lexes r ts -> lexes (t +++ r) ts.
Proof.
  intros [-> | (w & B & C)] H; [exact H|]. eapply lexes_comment; [apply C|]. apply lexes_blanks; auto.
Qed.

(** Constant text without slashes that ends with a blank or punctuation *)
Fixpoint no_slash (s : string) : bool :=
  match s with EmptyString => true | String c s' => negb (Ascii.eqb c "/") && no_slash s' end.
Fixpoint ends_stop (s : string) : bool :=
  match s with
  | EmptyString => true
  | String c EmptyString => negb (name_char c)
  | String _ s' => ends_stop s'
  end.
Lemma ends_stop_tail c s : ends_stop (String c s) = true -> ends_stop s = true.
Proof. destruct s; cbn; auto. Qed.
Lemma span_name_cons c s : span_name (String c s) =
  if name_char c then let (a, b) := span_name s in (String c a, b) else (EmptyString, String c s).
Proof. reflexivity. Qed.
Lemma span_name_const s r : ends_stop s = true -> s <> "" ->
  span_name (s +++ r) = (fst (span_name s), snd (span_name s) +++ r) /\ snd (span_name s) <> "" /\
  ends_stop (snd (span_name s)) = true /\ (no_slash s = true -> no_slash (snd (span_name s)) = true).
Proof.
  induction s as [|c s IH]; intros E N; [congruence|]. cbn [String.append]. rewrite !span_name_cons.
  destruct (name_char c) eqn:Nc.
  - destruct s as [|d s]. { cbn in E. rewrite Nc in E. discriminate. }
    destruct (IH (ends_stop_tail _ _ E) ltac:(discriminate)) as (A & B & C & D). rewrite A.
    destruct (span_name (String d s)) as [x y]. cbn [fst snd] in *. split; [auto|]. split; [auto|]. split; [auto|].
    intros Ns. apply D. cbn [no_slash] in Ns. apply andb_true_iff in Ns. tauto.
  - cbn [fst snd]. split; [auto|]. split; [discriminate|]. split; auto.
Qed.
Lemma span_str_const s r l q : span_str s = Some (l, q) ->
  span_str (s +++ r) = Some (l, q +++ r) /\ (ends_stop s = true -> ends_stop q = true) /\ (no_slash s = true -> no_slash q = true).
Proof.
  revert l q. induction s as [|c s IH]; intros l q H; [discriminate|]. cbn [String.append span_str] in *.
  destruct (nat_of_ascii c =? 34).
  - inversion H; subst. split; [auto|]. split; [apply ends_stop_tail|]. cbn. rewrite andb_true_iff. tauto.
  - destruct (str_stop c); [discriminate|]. destruct (span_str s) as [[a b]|]; [|discriminate]. inversion H; subst.
    destruct (IH a q eq_refl) as (A & B & C). rewrite A. split; [auto|]. split.
    + intros E. apply B. eapply ends_stop_tail; eauto.
    + cbn. rewrite andb_true_iff. intros [_ X]. auto.
Qed.
Lemma lex_const f : forall pre ts0 r ts, lex f pre = Some ts0 -> no_slash pre = true -> ends_stop pre = true ->
  lexes r ts -> lexes (pre +++ r) (ts0 ++ ts).
Proof.
  induction f as [|f IH]; intros pre ts0 r ts H Ns Es L; [discriminate|]. rewrite lex_S in H.
  destruct pre as [|c s]. { inversion H; subst. exact L. }
  cbn [no_slash] in Ns. apply andb_true_iff in Ns. destruct Ns as [Nc Ns]. apply negb_true_iff in Nc.
  pose proof (ends_stop_tail _ _ Es) as Et.
  destruct (white c) eqn:Bc.
  { cbn [String.append]. apply lexes_blank; eauto. }
  destruct (name_char c) eqn:Nm.
  { destruct (span_name_const (String c s) r Es ltac:(discriminate)) as (A & B & C & D).
    destruct (span_name (String c s)) as [n q] eqn:E. cbn [fst snd] in *.
    apply ocons_some in H. destruct H as (l & H & ->).
    destruct (IH q l r ts H) as [g G]; auto. { apply D. cbn. rewrite Nc. auto. }
    exists (S g). rewrite lex_S. cbn [String.append]. rewrite Bc, Nm. cbn [String.append] in A. rewrite A, G. reflexivity. }
  destruct (nat_of_ascii c =? 34) eqn:Qc.
  { destruct (span_str s) as [[l q]|] eqn:E; [|discriminate]. apply ocons_some in H. destruct H as (l' & H & ->).
    destruct (span_str_const s r l q E) as (A & B & C).
    destruct (IH q l' r ts H (C Ns) (B Et) L) as [g G].
    exists (S g). rewrite lex_S. cbn [String.append]. rewrite Bc, Nm, Qc, A, G. reflexivity. }
  rewrite Nc in H. destruct (punct_of c) as [p|] eqn:Pc; [|discriminate]. apply ocons_some in H. destruct H as (l' & H & ->).
  destruct (IH s l' r ts H Ns Et L) as [g G].
  exists (S g). rewrite lex_S. cbn [String.append]. rewrite Bc, Nm, Qc, Nc, Pc, G. reflexivity.
Qed.
Lemma lexes_const pre ts0 r ts : lex (S (String.length pre)) pre = Some ts0 -> no_slash pre && ends_stop pre = true ->
  lexes r ts -> lexes (pre +++ r) (ts0 ++ ts).
Proof. rewrite andb_true_iff. intros H [A B]. eapply lex_const; eauto. Qed.

(** ** Tokens of trees *)
Fixpoint texpr_toks (e : texpr) : list token :=
  match e with
  | XName n => [TId n]
  | XLit s => [TStr s]
  | XNull => [TId "null"]
  | XArr e => texpr_toks e ++ [TP PLBrack; TP PRBrack]
  | XUnion a b => texpr_toks a ++ TP PBar :: texpr_toks b
  | XParen e => TP PLParen :: texpr_toks e ++ [TP PRParen]
  end.
Definition member_toks (m : member) : list token :=
  (if m_readonly m then [TId "readonly"] else []) ++ TId (m_name m) :: (if m_optional m then [TP PQuest] else [])
  ++ TP PColon :: texpr_toks (m_type m) ++ [TP PSemi].
Fixpoint sep_toks (p : punct) (l : list string) : list token :=
  match l with
  | [] => []
  | [n] => [TId n]
  | n :: l' => TId n :: TP p :: sep_toks p l'
  end.
Definition enum_toks (l : list (string * string)) : list token :=
  flat_map (fun x => [TId (fst x); TP PEq; TStr (snd x); TP PComma]) l.
Definition item_toks (i : item) : list token :=
  match i with
  | ItImport ns m => [TId "import"; TId "type"; TP PLBrace] ++ sep_toks PComma ns ++ [TP PRBrace; TId "from"; TStr m; TP PSemi]
  | ItType (DObj n ms) => [TId "export"; TId "type"; TId n; TP PEq; TP PLBrace] ++ flat_map member_toks ms ++ [TP PRBrace; TP PSemi]
  | ItType (DAlias n l) => [TId "export"; TId "type"; TId n; TP PEq] ++ sep_toks PBar l ++ [TP PSemi]
  | ItEnum n l => [TId "export"; TId "enum"; TId n; TP PLBrace] ++ enum_toks l ++ [TP PRBrace]
  | ItConst x n ns => [TId "declare"; TId "const"; TId x; TP PColon; TId n; TP PLt] ++ sep_toks PComma ns ++ [TP PGt; TP PSemi]
  | ItDefault n => [TId "export"; TId "default"; TId n; TP PSemi]
  end.

Ltac const := apply lexes_const; [reflexivity|reflexivity|].

Lemma lexes_texpr e : texpr_ok e -> forall r ts, stops r -> lexes r ts -> lexes (print_texpr e +++ r) (texpr_toks e ++ ts).
Proof.
  induction e as [n|l| |e IH|a IHa b IHb|e IH]; intros W r ts St L; cbn [print_texpr texpr_toks texpr_ok] in *.
  - destruct (ref_plain n W). apply lexes_id; auto.
  - rewrite !sapp_assoc. apply lexes_str; auto.
  - apply lexes_id; auto. discriminate.
  - rewrite sapp_assoc, <- app_assoc. apply IH; [tauto|reflexivity|]. const. exact L.
  - rewrite !sapp_assoc, <- app_assoc. apply IHa; [tauto|reflexivity|]. cbn [app].
    apply (lexes_const " | " [TP PBar]); [reflexivity|reflexivity|]. apply IHb; tauto.
  - rewrite !sapp_assoc. cbn [app]. rewrite <- app_assoc. apply (lexes_const "(" [TP PLParen]); [reflexivity|reflexivity|].
    apply IH; [auto|reflexivity|]. apply (lexes_const ")" [TP PRParen]); [reflexivity|reflexivity|]. exact L.
Qed.

Lemma lexes_member m r ts : member_ok m -> lexes r ts -> lexes (member_text m +++ r) (member_toks m ++ ts).
Proof.
  intros (C & I & T) L. unfold member_text, member_toks. rewrite !sapp_assoc.
  apply (lexes_blanks "  "); [reflexivity|]. apply lexes_comment_ok; auto.
  assert (Main : lexes (m_name m +++ (if m_optional m then "?" else "") +++ ": " +++ print_texpr (m_type m) +++ ";" +++ r)
    (TId (m_name m) :: (if m_optional m then [TP PQuest] else []) ++ TP PColon :: texpr_toks (m_type m) ++ [TP PSemi] ++ ts)).
  { destruct (ident_plain _ I). apply lexes_id; auto. { destruct (m_optional m); reflexivity. }
    assert (Rest : lexes (": " +++ print_texpr (m_type m) +++ ";" +++ r) ([TP PColon] ++ texpr_toks (m_type m) ++ [TP PSemi] ++ ts)).
    { const. apply lexes_texpr; auto; [reflexivity|]. const. exact L. }
    destruct (m_optional m).
    - apply (lexes_const "?" [TP PQuest]); [reflexivity|reflexivity|]. exact Rest.
    - exact Rest. }
  assert (E : forall X Y : list token, (X ++ TId (m_name m) :: Y ++ TP PColon :: texpr_toks (m_type m) ++ [TP PSemi]) ++ ts =
    X ++ TId (m_name m) :: Y ++ TP PColon :: texpr_toks (m_type m) ++ [TP PSemi] ++ ts).
  { intros X Y. rewrite <- app_assoc. cbn [app]. rewrite <- app_assoc. cbn [app]. rewrite <- app_assoc. reflexivity. }
  rewrite E. destruct (m_readonly m).
  - const. exact Main.
  - exact Main.
Qed.

Lemma join_cons sep x y l : join sep (x :: y :: l) = x +++ sep +++ join sep (y :: l).
Proof. reflexivity. Qed.
Lemma lexes_members ms : (forall m, In m ms -> member_ok m) -> forall r ts, lexes r ts ->
  lexes (join nl (List.map member_text ms) +++ r) (flat_map member_toks ms ++ ts).
Proof.
  induction ms as [|m ms IH]; intros H r ts L; [exact L|].
  destruct ms as [|m' ms].
  - cbn [List.map flat_map]. rewrite app_nil_r. unfold join. cbn [String.concat]. apply lexes_member; auto. apply H. left. auto.
  - cbn [List.map]. rewrite join_cons. change (member_text m' :: List.map member_text ms) with (List.map member_text (m' :: ms)).
    rewrite !sapp_assoc. cbn [flat_map]. rewrite <- app_assoc. apply lexes_member; [apply H; left; auto|].
    apply (lexes_blanks nl); [reflexivity|]. apply IH; auto. intros x I. apply H. right. auto.
Qed.
Lemma lexes_sep p sep l : (forall n, In n l -> n <> "" /\ snd (span_name n) = "") -> l <> [] ->
  (forall r, stops (sep +++ r)) -> (forall r ts, lexes r ts -> lexes (sep +++ r) (TP p :: ts)) ->
  forall r ts, stops r -> lexes r ts -> lexes (join sep l +++ r) (sep_toks p l ++ ts).
Proof.
  intros H N Sp Ls. induction l as [|n l IH]; [congruence|]. intros r ts St L. destruct l as [|n' l].
  - unfold join. cbn [String.concat sep_toks app]. destruct (H n (or_introl eq_refl)). apply lexes_id; auto.
  - rewrite join_cons, !sapp_assoc. cbn [sep_toks app]. destruct (H n (or_introl eq_refl)). apply lexes_id; auto.
    apply Ls. apply IH; auto; [|discriminate]. intros x I. apply H. right. auto.
Qed.
Lemma lexes_comma l : (forall n, In n l -> n <> "" /\ snd (span_name n) = "") -> l <> [] ->
  forall r ts, stops r -> lexes r ts -> lexes (join ", " l +++ r) (sep_toks PComma l ++ ts).
Proof.
  intros H N. apply lexes_sep; auto; [reflexivity|]. intros r ts L.
  apply (lexes_const ", " [TP PComma]); [reflexivity|reflexivity|]. exact L.
Qed.
Lemma lexes_bar l : (forall n, In n l -> n <> "" /\ snd (span_name n) = "") -> l <> [] ->
  forall r ts, stops r -> lexes r ts -> lexes (join " | " l +++ r) (sep_toks PBar l ++ ts).
Proof.
  intros H N. apply lexes_sep; auto; [reflexivity|]. intros r ts L.
  apply (lexes_const " | " [TP PBar]); [reflexivity|reflexivity|]. exact L.
Qed.

Lemma bare_toks m : member_toks (bare_member m) = member_toks m.
Proof. reflexivity. Qed.
Lemma bare_member_ok m : member_ok m -> member_ok (bare_member m).
Proof. intros (A & B & C). repeat split; auto. left. reflexivity. Qed.

Lemma lexes_decl d r ts : decl_ok d -> lexes r ts -> lexes (decl_text d +++ r) (item_toks (ItType (bare_decl d)) ++ ts).
Proof.
  intros W L. destruct d as [n ms|n l]; cbn [decl_ok decl_text bare_decl item_toks] in *; rewrite !sapp_assoc, <- !app_assoc.
  - destruct W as [B M]. destruct (binder_plain _ B).
    apply (lexes_const "export type " [TId "export"; TId "type"]); [reflexivity|reflexivity|]. cbn [app].
    apply lexes_id; auto; [reflexivity|].
    apply (lexes_const (" = {" +++ nl) [TP PEq; TP PLBrace]); [reflexivity|reflexivity|].
    replace (flat_map member_toks (List.map bare_member ms)) with (flat_map member_toks ms).
    2: { rewrite !flat_map_concat_map, map_map. f_equal. }
    apply lexes_members; auto. apply (lexes_const (nl +++ "};") [TP PRBrace; TP PSemi]); [reflexivity|reflexivity|]. exact L.
  - destruct W as [B [N M]]. destruct (binder_plain _ B).
    apply (lexes_const "export type " [TId "export"; TId "type"]); [reflexivity|reflexivity|]. cbn [app].
    apply lexes_id; auto; [reflexivity|]. apply (lexes_const " = " [TP PEq]); [reflexivity|reflexivity|].
    apply lexes_bar; auto; [|reflexivity|].
    + intros x I. apply ref_plain; auto.
    + apply (lexes_const ";" [TP PSemi]); [reflexivity|reflexivity|]. exact L.
Qed.
Lemma lexes_decls ds : (forall d, In d ds -> decl_ok d) -> forall r ts, lexes r ts ->
  lexes (join (nl +++ nl) (List.map decl_text ds) +++ r) (flat_map item_toks (List.map (fun d => ItType (bare_decl d)) ds) ++ ts).
Proof.
  induction ds as [|d ds IH]; intros H r ts L; [exact L|]. destruct ds as [|d' ds].
  - cbn [List.map flat_map]. rewrite app_nil_r. unfold join. cbn [String.concat]. apply lexes_decl; auto. apply H. left. auto.
  - cbn [List.map]. rewrite join_cons. change (decl_text d' :: List.map decl_text ds) with (List.map decl_text (d' :: ds)).
    rewrite !sapp_assoc. cbn [flat_map]. rewrite <- app_assoc. apply lexes_decl; [apply H; left; auto|].
    apply (lexes_blanks (nl +++ nl)); [reflexivity|]. apply IH; auto. intros x I. apply H. right. auto.
Qed.
Lemma lexes_import ns m r ts : all_named binder ns -> str_ok m = true -> lexes r ts ->
  lexes (import_text ns m +++ r) (item_toks (ItImport ns m) ++ ts).
Proof.
  intros [N H] M L. unfold import_text. cbn [item_toks]. rewrite !sapp_assoc, <- !app_assoc.
  apply (lexes_const "import type { " [TId "import"; TId "type"; TP PLBrace]); [reflexivity|reflexivity|].
  apply lexes_comma; auto; [intros x I; apply binder_plain; auto|reflexivity|].
  apply (lexes_const " } from " [TP PRBrace; TId "from"]); [reflexivity|reflexivity|]. cbn [app].
  apply lexes_str; auto. apply (lexes_const (";" +++ nl) [TP PSemi]); [reflexivity|reflexivity|]. exact L.
Qed.
Lemma lexes_banner r ts : lexes r ts -> lexes (banner +++ r) ts.
Proof.
  intros L. unfold banner. rewrite !sapp_assoc.
  apply (lexes_comment _ (nl +++ "// This file was automatically generated and should not be edited." +++ nl +++ nl +++ r)).
  - exists " eslint-disable ". split; [reflexivity|]. apply has_close_false. reflexivity.
  - apply (lexes_blanks nl); [reflexivity|].
    assert (X : lexes (nl +++ r) ts) by (apply (lexes_blanks nl); [reflexivity|exact L]).
    destruct X as [f X]. exists (S f). rewrite lex_S. exact X.
Qed.

Lemma lexes_tsfile m : tsfile_ok m -> lexes (tsfile_text m) (flat_map item_toks (tsfile_items m)).
Proof.
  intros (B & Nf & G & Gf & D & _ & A0 & A). unfold tsfile_text, tsfile_items. apply lexes_banner. cbn [flat_map].
  apply lexes_import; auto. { split; [discriminate|]. intros x [<-|[]]. auto. }
  rewrite !flat_map_app.
  assert (Tail : lexes (nl +++ join (nl +++ nl) (List.map decl_text (tf_decls m)) +++ nl +++ nl +++ "declare const graphqlDocument: " +++ tf_node m +++ "<" +++ join ", " (tf_args m) +++ ">;" +++ nl +++ "export default graphqlDocument;")
    (flat_map item_toks (List.map (fun d => ItType (bare_decl d)) (tf_decls m)) ++ flat_map item_toks [ItConst "graphqlDocument" (tf_node m) (tf_args m); ItDefault "graphqlDocument"])).
  { apply (lexes_blanks nl); [reflexivity|]. apply lexes_decls; auto. apply (lexes_blanks (nl +++ nl)); [reflexivity|].
    cbn [flat_map item_toks app]. rewrite <- app_assoc.
    apply (lexes_const "declare const graphqlDocument: " [TId "declare"; TId "const"; TId "graphqlDocument"; TP PColon]); [reflexivity|reflexivity|].
    destruct (binder_plain _ B). cbn [app]. apply lexes_id; auto; [reflexivity|].
    apply (lexes_const "<" [TP PLt]); [reflexivity|reflexivity|].
    apply lexes_comma; auto; [intros x I; apply ref_plain; auto|reflexivity|].
    exists 20. reflexivity. }
  destruct (tf_globals m) as [|g gs] eqn:E.
  - cbn [flat_map app]. exact Tail.
  - cbn [flat_map]. rewrite app_nil_r. apply lexes_import; auto. { split; [discriminate|exact G]. }
Qed.

(** ** Parsing *)
Lemma p_union_S f ts : p_union (S f) ts = match p_post f ts with Some (e, r) => p_alts f e r | None => None end.
Proof. reflexivity. Qed.
Lemma p_alts_S f e ts : p_alts (S f) e ts =
  match ts with
  | TP PBar :: r => match p_post f r with Some (e', r') => p_alts f (XUnion e e') r' | None => None end
  | _ => Some (e, ts)
  end.
Proof. reflexivity. Qed.
Lemma p_post_S f ts : p_post (S f) ts = match p_prim f ts with Some (e, r) => Some (p_arrs e r) | None => None end.
Proof. reflexivity. Qed.
Lemma p_prim_S f ts : p_prim (S f) ts =
  match ts with
  | TP PLParen :: r =>
      match p_union f r with Some (e, TP PRParen :: r') => Some (XParen e, r') | _ => None end
  | TStr l :: r => Some (XLit l, r)
  | TId n :: r => if String.eqb n "null" then Some (XNull, r)
                  else if ref_name n then Some (XName n, r) else None
  | _ => None
  end.
Proof. reflexivity. Qed.

Lemma p_mono : forall f,
  (forall ts x, p_union f ts = Some x -> p_union (S f) ts = Some x) /\
  (forall e ts x, p_alts f e ts = Some x -> p_alts (S f) e ts = Some x) /\
  (forall ts x, p_post f ts = Some x -> p_post (S f) ts = Some x) /\
  (forall ts x, p_prim f ts = Some x -> p_prim (S f) ts = Some x).
Proof.
  induction f as [|f (IU & IA & IPo & IPr)]; [repeat split; intros; discriminate|]. repeat split.
  - intros ts x H. rewrite p_union_S in H. rewrite p_union_S. destruct (p_post f ts) as [[e r]|] eqn:E; [|discriminate].
    rewrite (IPo _ _ E). auto.
  - intros e ts x H. rewrite p_alts_S in H. rewrite p_alts_S. destruct ts as [|[| |[]] ts]; auto.
    destruct (p_post f ts) as [[e' r]|] eqn:E; [|discriminate]. rewrite (IPo _ _ E). auto.
  - intros ts x H. rewrite p_post_S in H. rewrite p_post_S. destruct (p_prim f ts) as [[e r]|] eqn:E; [|discriminate].
    rewrite (IPr _ _ E). auto.
  - intros ts x H. rewrite p_prim_S in H. rewrite p_prim_S. destruct ts as [|[| |[]] ts]; auto.
    destruct (p_union f ts) as [[e r]|] eqn:E; [|discriminate]. rewrite (IU _ _ E). auto.
Qed.
Lemma p_union_le f g ts x : f <= g -> p_union f ts = Some x -> p_union g ts = Some x.
Proof. induction 1; auto. intros H1. apply (proj1 (p_mono m)). auto. Qed.
Lemma p_alts_le f g e ts x : f <= g -> p_alts f e ts = Some x -> p_alts g e ts = Some x.
Proof. induction 1; auto. intros H1. apply (proj1 (proj2 (p_mono m))). auto. Qed.
Lemma p_post_le f g ts x : f <= g -> p_post f ts = Some x -> p_post g ts = Some x.
Proof. induction 1; auto. intros H1. apply (proj1 (proj2 (proj2 (p_mono m)))). auto. Qed.

Definition no_brack (ts : list token) : Prop := forall e, p_arrs e ts = (e, ts).

Lemma p_texpr e : texpr_ok e ->
  (is_union e = false -> forall r, exists n, p_post n (texpr_toks e ++ r) = Some (p_arrs e r)) /\
  (forall r m x, no_brack r -> p_alts m e r = Some x -> exists n, p_union n (texpr_toks e ++ r) = Some x).
Proof.
  assert (Lift : forall e, (forall r, exists n, p_post n (texpr_toks e ++ r) = Some (p_arrs e r)) ->
    forall r m x, no_brack r -> p_alts m e r = Some x -> exists n, p_union n (texpr_toks e ++ r) = Some x).
  { intros e0 P r m x Nb H. destruct (P r) as [n Hn]. rewrite Nb in Hn. exists (S (n + m)). rewrite p_union_S.
    rewrite (p_post_le n (n + m) _ _ ltac:(lia) Hn). apply (p_alts_le m); auto. lia. }
  induction e as [n|l| |e IH|a IHa b IHb|e IH]; intros W; cbn [texpr_ok texpr_toks is_union] in *.
  - assert (P : forall r, exists k, p_post k (texpr_toks (XName n) ++ r) = Some (p_arrs (XName n) r)).
    { intros r. exists 2. cbn [texpr_toks app]. rewrite p_post_S, p_prim_S, (ref_not_null n W), W. auto. }
    split; [auto|apply Lift; auto].
  - assert (P : forall r, exists k, p_post k (texpr_toks (XLit l) ++ r) = Some (p_arrs (XLit l) r)).
    { intros r. exists 2. reflexivity. }
    split; [auto|apply Lift; auto].
  - assert (P : forall r, exists k, p_post k (texpr_toks XNull ++ r) = Some (p_arrs XNull r)).
    { intros r. exists 2. reflexivity. }
    split; [auto|apply Lift; auto].
  - destruct W as [W U]. destruct (IH W) as [IH1 _].
    assert (P : forall r, exists k, p_post k (texpr_toks (XArr e) ++ r) = Some (p_arrs (XArr e) r)).
    { intros r. cbn [texpr_toks]. rewrite <- app_assoc. apply (IH1 U). }
    split; [auto|apply Lift; auto].
  - destruct W as (Wa & Wb & U). destruct (IHa Wa) as [_ IHa2]. destruct (IHb Wb) as [IHb1 _]. split; [discriminate|].
    intros r m x Nb H. rewrite <- app_assoc. cbn [app]. destruct (IHb1 U r) as [n Hn]. rewrite Nb in Hn.
    apply (IHa2 _ (S (n + m))); [intros e; reflexivity|]. rewrite p_alts_S.
    rewrite (p_post_le n (n + m) _ _ ltac:(lia) Hn). apply (p_alts_le m); auto. lia.
  - destruct (IH W) as [_ IH2].
    assert (P : forall r, exists k, p_post k (texpr_toks (XParen e) ++ r) = Some (p_arrs (XParen e) r)).
    { intros r. destruct (IH2 (TP PRParen :: r) 1 (e, TP PRParen :: r)) as [n Hn]; [intros e'; reflexivity|reflexivity|].
      exists (S (S n)). cbn [texpr_toks app]. rewrite <- app_assoc. cbn [app]. rewrite p_post_S, p_prim_S, Hn. reflexivity. }
    split; [auto|apply Lift; auto].
Qed.
Lemma p_type e r : texpr_ok e -> exists n, p_union n (texpr_toks e ++ TP PSemi :: r) = Some (e, TP PSemi :: r).
Proof. intros W. destruct (p_texpr e W) as [_ H]. apply (H _ 1); [intros e'; reflexivity|reflexivity]. Qed.

Lemma p_member_mono f ts x : p_member f ts = Some x -> p_member (S f) ts = Some x.
Proof.
  unfold p_member. set (fin := fun ro n opt r => if ident n then match p_union f r with Some (e, TP PSemi :: r') =>
    Some ({| m_comment := ""; m_readonly := ro; m_name := n; m_optional := opt; m_type := e |}, r') | _ => None end else None).
  set (fin' := fun ro n opt r => if ident n then match p_union (S f) r with Some (e, TP PSemi :: r') =>
    Some ({| m_comment := ""; m_readonly := ro; m_name := n; m_optional := opt; m_type := e |}, r') | _ => None end else None).
  assert (H : forall ro n opt r y, fin ro n opt r = Some y -> fin' ro n opt r = Some y).
  { intros ro n opt r y. unfold fin, fin'. destruct (ident n); [|discriminate].
    destruct (p_union f r) as [[e q]|] eqn:E; [|discriminate]. rewrite (proj1 (p_mono f) _ _ E). auto. }
  change (match ts with
    | TId n :: TP PColon :: r => fin false n false r
    | TId n :: TP PQuest :: TP PColon :: r => fin false n true r
    | TId w :: TId n :: TP PColon :: r => if String.eqb w "readonly" then fin true n false r else None
    | TId w :: TId n :: TP PQuest :: TP PColon :: r => if String.eqb w "readonly" then fin true n true r else None
    | _ => None end = Some x -> match ts with
    | TId n :: TP PColon :: r => fin' false n false r
    | TId n :: TP PQuest :: TP PColon :: r => fin' false n true r
    | TId w :: TId n :: TP PColon :: r => if String.eqb w "readonly" then fin' true n false r else None
    | TId w :: TId n :: TP PQuest :: TP PColon :: r => if String.eqb w "readonly" then fin' true n true r else None
    | _ => None end = Some x).
  destruct ts as [|[w| |] ts]; try discriminate. destruct ts as [|[n| |[]] ts]; try discriminate; auto.
  - destruct ts as [|[| |[]] ts]; try discriminate.
    + destruct (String.eqb w "readonly"); [auto|discriminate].
    + destruct ts as [|[| |[]] ts]; try discriminate. destruct (String.eqb w "readonly"); [auto|discriminate].
  - destruct ts as [|[| |[]] ts]; try discriminate. auto.
Qed.
Lemma p_member_le f g ts x : f <= g -> p_member f ts = Some x -> p_member g ts = Some x.
Proof. induction 1; auto. intros H1. apply p_member_mono. auto. Qed.
Lemma p_member_ok m r : member_ok m -> exists n, p_member n (member_toks m ++ r) = Some (bare_member m, r).
Proof.
  intros (_ & I & T). destruct (p_type (m_type m) r T) as [n Hn]. exists n.
  unfold member_toks, bare_member. rewrite <- app_assoc. cbn [app]. rewrite <- app_assoc. cbn [app]. rewrite <- app_assoc.
  cbn [app].
  destruct (m_readonly m) eqn:Er, (m_optional m) eqn:Eo; cbn [app p_member]; rewrite ?I, ?Hn; reflexivity.
Qed.

Lemma p_members_S f ts : p_members (S f) ts =
  match ts with
  | TP PRBrace :: r => Some ([], r)
  | _ => match p_member f ts with
         | Some (m, r) => match p_members f r with Some (ms, r') => Some (m :: ms, r') | None => None end
         | None => None
         end
  end.
Proof. reflexivity. Qed.
Lemma p_members_mono f : forall ts x, p_members f ts = Some x -> p_members (S f) ts = Some x.
Proof.
  induction f as [|f IH]; intros ts x H; [discriminate|]. rewrite p_members_S in H. rewrite p_members_S.
  assert (X : match p_member f ts with
         | Some (m, r) => match p_members f r with Some (ms, r') => Some (m :: ms, r') | None => None end
         | None => None end = Some x ->
         match p_member (S f) ts with
         | Some (m, r) => match p_members (S f) r with Some (ms, r') => Some (m :: ms, r') | None => None end
         | None => None end = Some x).
  { destruct (p_member f ts) as [[m r]|] eqn:E; [|discriminate]. rewrite (p_member_mono _ _ _ E).
    destruct (p_members f r) as [[ms r']|] eqn:E2; [|discriminate]. rewrite (IH _ _ E2). auto. }
  destruct ts as [|[| |[]] ts]; auto.
Qed.
Lemma p_members_le f g ts x : f <= g -> p_members f ts = Some x -> p_members g ts = Some x.
Proof. induction 1; auto. intros H1. apply p_members_mono. auto. Qed.
Lemma p_members_ok ms : (forall m, In m ms -> member_ok m) -> forall r,
  exists n, p_members n (flat_map member_toks ms ++ TP PRBrace :: r) = Some (List.map bare_member ms, r).
Proof.
  induction ms as [|m ms IH]; intros H r.
  - exists 1. reflexivity.
  - destruct (IH (fun x I => H x (or_intror I)) r) as [a Ha].
    destruct (p_member_ok m (flat_map member_toks ms ++ TP PRBrace :: r) (H m (or_introl eq_refl))) as [b Hb].
    exists (S (a + b)). cbn [flat_map]. rewrite <- app_assoc. rewrite p_members_S.
    rewrite (p_member_le b (a + b) _ _ ltac:(lia) Hb), (p_members_le a (a + b) _ _ ltac:(lia) Ha).
    unfold member_toks. destruct (m_readonly m); reflexivity.
Qed.

Lemma p_names_ok ok sep p l : all_named ok l -> sep p = true -> forall q r, sep q = false ->
  p_names ok sep (sep_toks p l ++ TP q :: r) = Some (l, TP q :: r).
Proof.
  intros [N H] Sp q r Sq. induction l as [|n l IH]; [congruence|]. destruct l as [|n' l].
  - cbn [sep_toks app p_names]. rewrite (H n (or_introl eq_refl)), Sq. reflexivity.
  - cbn [sep_toks app]. cbn [p_names]. rewrite (H n (or_introl eq_refl)), Sp.
    cbn [sep_toks app] in IH. rewrite IH; [reflexivity|discriminate|]. intros x I. apply H. right. auto.
Qed.
Lemma p_enum_ok l : (forall x, In x l -> ident (fst x) = true) -> forall r,
  p_enum (enum_toks l ++ TP PRBrace :: r) = Some (l, r).
Proof.
  induction l as [|[n v] l IH]; intros H r; [reflexivity|]. cbn [enum_toks flat_map app fst snd].
  cbn [p_enum]. rewrite (H (n, v) (or_introl eq_refl) : ident n = true).
  change (flat_map (fun x : string * string => [TId (fst x); TP PEq; TStr (snd x); TP PComma]) l) with (enum_toks l).
  rewrite IH; [reflexivity|]. intros x I. apply H. right. auto.
Qed.

(** Well-formed statements, without comments *)
Definition item_ok (i : item) : Prop :=
  match i with
  | ItImport ns m => all_named binder ns
  | ItType d => decl_ok d /\ bare_decl d = d
  | ItEnum n l => binder n = true /\ forall x, In x l -> ident (fst x) = true
  | ItConst x n ns => binder x = true /\ ref_name n = true /\ all_named ref_name ns
  | ItDefault n => ident n = true
  end.
Lemma p_item_mono f ts x : p_item f ts = Some x -> p_item (S f) ts = Some x.
Proof.
  unfold p_item. destruct ts as [|[a| |] ts]; try discriminate. destruct ts as [|[b| |] ts]; try discriminate.
  destruct (String.eqb a "import" && String.eqb b "type"); auto.
  destruct (String.eqb a "export" && String.eqb b "type"); auto.
  destruct ts as [|[n| |] ts]; auto. destruct ts as [|[| |[]] ts]; auto. destruct (binder n); auto.
  destruct ts as [|[| |[]] ts]; auto.
  destruct (p_members f ts) as [[ms r]|] eqn:E; [|discriminate]. rewrite (p_members_mono _ _ _ E). auto.
Qed.
Lemma p_item_le f g ts x : f <= g -> p_item f ts = Some x -> p_item g ts = Some x.
Proof. induction 1; auto. intros H1. apply p_item_mono. auto. Qed.
Lemma p_item_ok i r : item_ok i -> exists n, p_item n (item_toks i ++ r) = Some (i, r).
Proof.
  destruct i as [ns m|[n ms|n l]|n l|x n ns|n]; cbn [item_ok item_toks decl_ok]; intros W.
  - exists 0. rewrite <- !app_assoc. cbn [app p_item String.eqb Ascii.eqb Bool.eqb andb].
    rewrite (p_names_ok binder is_comma PComma ns W eq_refl PRBrace) by reflexivity. reflexivity.
  - destruct W as [[B M] E]. injection E as E'.
    destruct (p_members_ok ms M (TP PSemi :: r)) as [k Hk]. exists k. rewrite <- !app_assoc.
    cbn [app p_item String.eqb Ascii.eqb Bool.eqb andb]. rewrite B. rewrite Hk, E'. reflexivity.
  - destruct W as [[B M] _]. exists 0. rewrite <- !app_assoc.
    cbn [app p_item String.eqb Ascii.eqb Bool.eqb andb]. rewrite B.
    pose proof (p_names_ok ref_name is_bar PBar l M eq_refl PSemi r eq_refl) as P.
    destruct M as [N _]. destruct l as [|a [|b l]]; [congruence| |]; cbn [sep_toks app] in *; rewrite P; reflexivity.
  - destruct W as [B M]. exists 0. rewrite <- !app_assoc. cbn [app p_item String.eqb Ascii.eqb Bool.eqb andb]. rewrite B.
    rewrite p_enum_ok by auto. reflexivity.
  - destruct W as (B & R & M). exists 0. rewrite <- !app_assoc. cbn [app p_item String.eqb Ascii.eqb Bool.eqb andb]. rewrite B, R. cbn [andb].
    rewrite (p_names_ok ref_name is_comma PComma ns M eq_refl PGt) by reflexivity. reflexivity.
  - exists 0. cbn [app p_item String.eqb Ascii.eqb Bool.eqb andb]. rewrite W. reflexivity.
Qed.
Lemma p_items_S f ts : p_items (S f) ts =
  match ts with [] => Some [] | _ => match p_item f ts with Some (i, r) => ocons i (p_items f r) | None => None end end.
Proof. reflexivity. Qed.
Lemma p_items_mono f : forall ts x, p_items f ts = Some x -> p_items (S f) ts = Some x.
Proof.
  induction f as [|f IH]; intros ts x H; [discriminate|]. rewrite p_items_S in H. rewrite p_items_S.
  destruct ts as [|t ts]; auto. destruct (p_item f (t :: ts)) as [[i r]|] eqn:E; [|discriminate].
  rewrite (p_item_mono _ _ _ E). apply ocons_some in H. destruct H as (l & E2 & ->). rewrite (IH _ _ E2). reflexivity.
Qed.
Lemma p_items_le f g ts x : f <= g -> p_items f ts = Some x -> p_items g ts = Some x.
Proof. induction 1; auto. intros H1. apply p_items_mono. auto. Qed.
Lemma p_items_ok is : (forall i, In i is -> item_ok i) -> exists n, p_items n (flat_map item_toks is) = Some is.
Proof.
  induction is as [|i is IH]; intros H; [exists 1; reflexivity|].
  destruct (IH (fun x I => H x (or_intror I))) as [a Ha].
  destruct (p_item_ok i (flat_map item_toks is) (H i (or_introl eq_refl))) as [b Hb].
  exists (S (a + b)). cbn [flat_map]. rewrite p_items_S.
  rewrite (p_item_le b (a + b) _ _ ltac:(lia) Hb), (p_items_le a (a + b) _ _ ltac:(lia) Ha). cbn [ocons].
  destruct i as [| [|]| | |]; reflexivity.
Qed.

Lemma read_module_functional s a b : read_module s a -> read_module s b -> a = b.
Proof.
  intros (ts & L & f & H) (ts' & L' & g & H'). rewrite (lexes_functional _ _ _ L' L) in H'.
  apply (p_items_le f (f + g)) in H; [|lia]. apply (p_items_le g (f + g)) in H'; [|lia]. congruence.
Qed.

Lemma bare_bare d : bare_decl (bare_decl d) = bare_decl d.
Proof. destruct d as [n ms|]; cbn; auto. f_equal. rewrite map_map. apply map_ext. reflexivity. Qed.
Lemma bare_decl_ok d : decl_ok d -> decl_ok (bare_decl d).
Proof.
  destruct d as [n ms|n l]; cbn; auto. intros [B M]. split; auto. intros m I. apply in_map_iff in I. destruct I as (x & <- & I).
  apply bare_member_ok. auto.
Qed.
(** The text of a well-formed module tree is read as that tree *)
Lemma tsfile_reads m : tsfile_ok m -> read_module (tsfile_text m) (tsfile_items m).
Proof.
  intros W. exists (flat_map item_toks (tsfile_items m)). split; [apply lexes_tsfile; auto|].
  apply p_items_ok. destruct W as (B & _ & G & _ & D & _ & A). unfold tsfile_items. intros i [<-|I].
  - split; [discriminate|]. intros x [<-|[]]. auto.
  - apply in_app_or in I. destruct I as [I|I].
    + destruct (tf_globals m) as [|g gs] eqn:E; [destruct I|]. destruct I as [<-|[]]. split; [discriminate|exact G].
    + apply in_app_or in I. destruct I as [I|I].
      * apply in_map_iff in I. destruct I as (d & <- & I). split; [apply bare_decl_ok; auto|apply bare_bare].
      * destruct I as [<-|[<-|[]]]; [|reflexivity]. split; [reflexivity|]. split; [apply binder_ref; auto|exact A].
Qed.
