(** Documentation comments. *)
From Verif Require Export SpecDoc BaseFacts Typescript.

Fixpoint has_close (s : string) : bool :=
  match s with
  | String a s' => (Ascii.eqb a "*" && match s' with String b _ => Ascii.eqb b "/" | _ => false end) || has_close s'
  | _ => false
  end.
Lemma has_close_spec s : has_close s = true <-> occurs "*/" s.
Proof.
  induction s as [|a s IH]; cbn.
  - split; [discriminate|]. intros ([|] & b & H); discriminate.
  - rewrite orb_true_iff, andb_true_iff, IH. split.
    + intros [[A B]|(p & q & ->)].
      * destruct s as [|b s]; [discriminate|]. apply Ascii.eqb_eq in A, B. subst. exists "", s. reflexivity.
      * exists (String a p), q. reflexivity.
    + intros ([|c p] & q & H); cbn in H; inversion H; subst.
      * left. auto.
      * right. exists p, q. reflexivity.
Qed.
Lemma has_close_false s : has_close s = false <-> ~ occurs "*/" s.
Proof.
  rewrite <- has_close_spec. destruct (has_close s); split; try congruence.
Qed.
Definition starts_slash (s : string) : bool := match s with String a _ => Ascii.eqb a "/" | _ => false end.
Fixpoint ends_star (s : string) : bool :=
  match s with EmptyString => false | String a EmptyString => Ascii.eqb a "*" | String _ s' => ends_star s' end.
Lemma has_close_app a b : has_close (a +++ b) = has_close a || has_close b || (ends_star a && starts_slash b).
Proof.
  induction a as [|x a IH]; [cbn; rewrite orb_false_r; auto|].
  destruct a as [|y a].
  - cbn. destruct b as [|z b]; cbn; rewrite ?andb_false_r, ?orb_false_r; auto.
    destruct (Ascii.eqb x "*"); cbn; auto. destruct (Ascii.eqb z "/"); cbn; rewrite ?orb_true_r, ?orb_false_r; auto.
  - change (String x (String y a) +++ b) with (String x (String y a +++ b)).
    change (has_close (String x (String y a +++ b))) with ((Ascii.eqb x "*" && Ascii.eqb y "/") || has_close (String y a +++ b)).
    change (ends_star (String x (String y a))) with (ends_star (String y a)).
    change (has_close (String x (String y a))) with ((Ascii.eqb x "*" && Ascii.eqb y "/") || has_close (String y a)).
    rewrite IH. rewrite !orb_assoc. reflexivity.
Qed.
Lemma ends_star_app a b : b <> "" -> ends_star (a +++ b) = ends_star b.
Proof.
  intros N. induction a as [|x a IH]; auto. cbn.
  destruct (a +++ b) as [|y r] eqn:E; [|exact IH]. destruct a; cbn in E; [congruence|discriminate].
Qed.
Lemma spaces_close n : has_close (spaces n) = false /\ ends_star (spaces n) = false /\ starts_slash (spaces n) = false.
Proof.
  split; [|split].
  - induction n; cbn; auto.
  - induction n as [|n IH]; auto. cbn. destruct (spaces n) eqn:E; auto.
  - destruct n; auto.
Qed.

(** ** Removing a two-character pattern *)
Fixpoint cut (a b : ascii) (s : string) : string :=
  match s with
  | String x (String y r as t) => if Ascii.eqb a x && Ascii.eqb b y then cut a b r else String x (cut a b t)
  | _ => s
  end.
Lemma string_ind2 (P : string -> Prop) : P "" -> (forall x, P (String x "")) ->
  (forall x y r, P r -> P (String y r) -> P (String x (String y r))) -> forall s, P s.
Proof.
  intros H0 H1 H2. assert (K : forall s, P s /\ forall x, P (String x s)).
  { induction s as [|y s [A B]]; split; auto. }
  intros s. apply K.
Qed.
Lemma replace_cut a b s : replace (String a (String b "")) "" s = cut a b s.
Proof.
  unfold replace. induction s as [|x|x y r IH1 IH2] using string_ind2; auto.
  - cbn. unfold starts_with. cbn. destruct (Ascii.eqb a x); auto.
  - change (cut a b (String x (String y r))) with (if Ascii.eqb a x && Ascii.eqb b y then cut a b r else String x (cut a b (String y r))).
    rewrite <- IH2, <- IH1. cbn [replace_from String.append String.length].
    unfold starts_with at 1. cbn [strip_prefix].
    destruct (Ascii.eqb a x); cbn [andb]; auto. destruct (Ascii.eqb b y); cbn [andb]; auto.
Qed.
Lemma cut_eq a b x y r : cut a b (String x (String y r)) = if Ascii.eqb a x && Ascii.eqb b y then cut a b r else String x (cut a b (String y r)).
Proof. reflexivity. Qed.

Lemma cut_open_start s : starts_slash s = false -> starts_slash (cut "/" "*" s) = false.
Proof.
  destruct s as [|x [|y r]]; auto. intros H. rewrite cut_eq. cbn in H.
  rewrite Ascii.eqb_sym, H. cbn. auto.
Qed.
Lemma cut_open_safe s : has_close s = false -> has_close (cut "/" "*" s) = false.
Proof.
  induction s as [|x|x y r IH1 IH2] using string_ind2; auto. intros H.
  change (has_close (String x (String y r))) with ((Ascii.eqb x "*" && Ascii.eqb y "/") || has_close (String y r)) in H.
  apply orb_false_iff in H. destruct H as [A B]. rewrite cut_eq.
  destruct (Ascii.eqb "/" x && Ascii.eqb "*" y) eqn:E.
  - apply IH1. cbn in B. apply orb_false_iff in B. apply B.
  - change (has_close (String x (cut "/" "*" (String y r)))) with
      ((Ascii.eqb x "*" && starts_slash (cut "/" "*" (String y r))) || has_close (cut "/" "*" (String y r))).
    rewrite IH2; auto. rewrite orb_false_r. destruct (Ascii.eqb x "*") eqn:Ex; auto. cbn [andb] in A |- *.
    apply cut_open_start. auto.
Qed.
Lemma sep_nl sep d : sep <> "" -> starts_slash sep = false -> has_close sep = false -> ends_star sep = false ->
  has_close d = false -> has_close (replace nl sep d) = false.
Proof.
  intros N0 N1 N2 N3. unfold replace.
  assert (S1 : forall d, starts_slash d = false -> starts_slash (replace_from nl sep 0 d) = false).
  { intros [|x d0]; auto. intros H. cbn [replace_from]. destruct (starts_with nl (String x d0)); [|exact H].
    destruct sep; [congruence|exact N1]. }
  induction d as [|x d IH]; auto. intros H.
  change (has_close (String x d)) with ((Ascii.eqb x "*" && starts_slash d) || has_close d) in H.
  apply orb_false_iff in H. destruct H as [A B]. cbn [replace_from].
  destruct (starts_with nl (String x d)).
  - cbn [nl String.length Nat.sub]. rewrite has_close_app, N2, N3. cbn. rewrite IH; auto.
  - change (has_close (String x (replace_from nl sep 0 d))) with
      ((Ascii.eqb x "*" && starts_slash (replace_from nl sep 0 d)) || has_close (replace_from nl sep 0 d)).
    rewrite IH; auto. rewrite orb_false_r. destruct (Ascii.eqb x "*"); auto. cbn [andb] in A |- *. auto.
Qed.

(** ** What is left after removing terminators *)
Lemma cut_close_start s : starts_slash (cut "*" "/" s) = true -> exists k q, s = terminators k +++ "/" +++ q.
Proof.
  induction s as [|x|x y r IH1 IH2] using string_ind2; try discriminate.
  - cbn. intros H. apply Ascii.eqb_eq in H. subst. exists 0, "". reflexivity.
  - rewrite cut_eq. destruct (Ascii.eqb "*" x && Ascii.eqb "/" y) eqn:E.
    + apply andb_true_iff in E. destruct E as [Ex Ey]. apply Ascii.eqb_eq in Ex, Ey. subst.
      intros H. destruct (IH1 H) as (k & q & ->). exists (S k), q. reflexivity.
    + cbn. intros H. apply Ascii.eqb_eq in H. subst. exists 0, (String y r). reflexivity.
Qed.
Lemma cut_close_exact s : has_close (cut "*" "/" s) = true <->
  exists p k q, s = p +++ "*" +++ terminators (S k) +++ "/" +++ q.
Proof.
  split.
  - induction s as [|x|x y r IH1 IH2] using string_ind2; [discriminate| |].
    + cbn. rewrite andb_false_r. discriminate.
    + rewrite cut_eq. destruct (Ascii.eqb "*" x && Ascii.eqb "/" y) eqn:E.
      * intros H. destruct (IH1 H) as (p & k & q & ->). exists (String x (String y p)), k, q. reflexivity.
      * change (has_close (String x (cut "*" "/" (String y r)))) with
          ((Ascii.eqb x "*" && starts_slash (cut "*" "/" (String y r))) || has_close (cut "*" "/" (String y r))).
        rewrite orb_true_iff, andb_true_iff. intros [[Ex H]|H].
        -- apply Ascii.eqb_eq in Ex. subst x. destruct (cut_close_start _ H) as ([|k] & q & Eq).
           ++ cbn in Eq. inversion Eq; subst. cbn in E. discriminate.
           ++ rewrite Eq. exists "", k, q. reflexivity.
        -- destruct (IH2 H) as (p & k & q & Eq). exists (String x p), k, q. rewrite Eq. reflexivity.
  - intros (p & k & q & ->).
    assert (K : forall k, cut "*" "/" (terminators k +++ "/" +++ q) = "/" +++ cut "*" "/" q).
    { clear. induction k as [|k IH]; [destruct q; reflexivity|]. cbn [terminators]. rewrite sapp_assoc.
      change (cut "*" "/" ("*/" +++ terminators k +++ "/" +++ q)) with (cut "*" "/" (terminators k +++ "/" +++ q)). exact IH. }
    assert (B : cut "*" "/" ("*" +++ terminators (S k) +++ "/" +++ q) = "*/" +++ cut "*" "/" q).
    { change (cut "*" "/" ("*" +++ terminators (S k) +++ "/" +++ q)) with
        (String "*" (cut "*" "/" (terminators (S k) +++ "/" +++ q))). rewrite K. reflexivity. }
    change ("*" +++ terminators (S k) +++ "/" +++ q) with (String "*" (terminators (S k) +++ "/" +++ q)) in *.
    set (t := terminators (S k) +++ "/" +++ q) in *.
    induction p as [|x|x y r IH1 IH2] using string_ind2.
    + change ("" +++ String "*" t) with (String "*" t). rewrite B. reflexivity.
    + change (String x "" +++ String "*" t) with (String x (String "*" t)). rewrite cut_eq.
      change (Ascii.eqb "/" "*") with false. rewrite andb_false_r, B. cbn. rewrite orb_true_r. reflexivity.
    + change (String x (String y r) +++ String "*" t) with (String x (String y (r +++ String "*" t))). rewrite cut_eq.
      destruct (Ascii.eqb "*" x && Ascii.eqb "/" y); [exact IH1|].
      change (String y r +++ String "*" t) with (String y (r +++ String "*" t)) in IH2.
      cbn [has_close]. rewrite IH2. apply orb_true_r.
Qed.

(** ** The emitted comment *)
Definition doc_sep (w : nat) : string := nl +++ " " +++ spaces w +++ "* ".
(** The description as it enters the comment, before terminators are removed *)
Definition doc_lines (w : nat) (d : string) : string := replace "/*" "" (replace nl (doc_sep w) d).
Definition doc_content (w : nat) (doc : option string) (dep : bool) : string :=
  match doc, dep with
  | Some d, true => replace "*/" "" (doc_lines w d) +++ doc_sep w +++ "@deprecated"
  | Some d, false => replace "*/" "" (doc_lines w d)
  | None, _ => "@deprecated"
  end.
Lemma comp_doc doc dep w : compile_documentation doc dep w =
  match doc, dep with
  | None, false => ""
  | _, _ => "/*" +++ ("*" +++ doc_sep w +++ doc_content w doc dep +++ nl +++ " " +++ spaces w) +++ "*/" +++ nl +++ spaces w
  end.
Proof.
  unfold compile_documentation, doc_content, doc_lines, doc_sep. destruct doc as [d|], dep; cbn [option_map];
    rewrite ?sapp_assoc; reflexivity.
Qed.
Lemma doc_sep_close w : has_close (doc_sep w) = false /\ ends_star (doc_sep w) = false.
Proof.
  destruct (spaces_close w) as (A & B & C). unfold doc_sep. split.
  - change (nl +++ " " +++ spaces w +++ "* ") with (String (ascii_of_nat 10) (String " " (spaces w +++ "* "))).
    cbn [has_close]. rewrite has_close_app, A, B. reflexivity.
  - change (nl +++ " " +++ spaces w +++ "* ") with ((nl +++ " ") +++ (spaces w +++ "* ")).
    rewrite ends_star_app; [|destruct (spaces w); discriminate]. rewrite ends_star_app; [reflexivity|discriminate].
Qed.
Lemma body_close w x : has_close (("*" +++ doc_sep w +++ x +++ nl +++ " " +++ spaces w) +++ "*") = has_close x.
Proof.
  destruct (spaces_close w) as (A & B & C). destruct (doc_sep_close w) as (D & E).
  rewrite !sapp_assoc. rewrite (has_close_app "*"). change (has_close "*") with false.
  change (starts_slash (doc_sep w +++ x +++ nl +++ " " +++ spaces w +++ "*")) with false. rewrite andb_false_r, orb_false_r. cbn [orb].
  rewrite has_close_app, D, E. cbn [orb andb]. rewrite orb_false_r.
  rewrite has_close_app. change (starts_slash (nl +++ " " +++ spaces w +++ "*")) with false. rewrite andb_false_r, orb_false_r.
  change (nl +++ " " +++ spaces w +++ "*") with (String (ascii_of_nat 10) (String " " (spaces w +++ "*"))).
  cbn [has_close]. change (Ascii.eqb (ascii_of_nat 10) "*") with false. change (Ascii.eqb " " "*") with false. cbn [andb orb].
  rewrite has_close_app, A, B. cbn. apply orb_false_r.
Qed.
Lemma content_close w doc dep : has_close (doc_content w doc dep) =
  match doc with Some d => has_close (cut "*" "/" (doc_lines w d)) | None => false end.
Proof.
  destruct (doc_sep_close w) as (D & E).
  destruct doc as [d|], dep; cbn [doc_content]; auto; rewrite replace_cut; auto.
  rewrite has_close_app. change (starts_slash (doc_sep w +++ "@deprecated")) with false.
  rewrite has_close_app, D, E. cbn. rewrite andb_false_r, !orb_false_r. reflexivity.
Qed.
Lemma doc_comment doc dep w rest : doc <> None \/ dep = true ->
  (comment_then (compile_documentation doc dep w +++ rest) (nl +++ spaces w +++ rest) <->
   match doc with Some d => has_close (cut "*" "/" (doc_lines w d)) = false | None => True end).
Proof.
  intros H. rewrite comp_doc.
  assert (X : match doc, dep with None, false => False | _, _ => True end)
    by (destruct doc, dep; auto; destruct H; congruence).
  assert (Y : match doc, dep with
    | None, false => ""
    | _, _ => "/*" +++ ("*" +++ doc_sep w +++ doc_content w doc dep +++ nl +++ " " +++ spaces w) +++ "*/" +++ nl +++ spaces w
    end = "/*" +++ ("*" +++ doc_sep w +++ doc_content w doc dep +++ nl +++ " " +++ spaces w) +++ "*/" +++ nl +++ spaces w)
    by (destruct doc, dep; auto; contradiction).
  rewrite Y. clear X Y. pose proof (content_close w doc dep) as K.
  transitivity (has_close (doc_content w doc dep) = false).
  2: { rewrite K. destruct doc; tauto. }
  rewrite <- (body_close w (doc_content w doc dep)), has_close_false.
  set (body := "*" +++ doc_sep w +++ doc_content w doc dep +++ nl +++ " " +++ spaces w) in *. clearbody body.
  split.
  - intros (b & E & N). replace b with body in N; auto.
    assert (E' : "/*" +++ body +++ ("*/" +++ nl +++ spaces w +++ rest) = "/*" +++ b +++ ("*/" +++ nl +++ spaces w +++ rest)).
    { rewrite <- E. rewrite !sapp_assoc. reflexivity. }
    apply sapp_inj_l in E'. apply sapp_inj_r in E'. auto.
  - intros N. exists body. split; auto. rewrite !sapp_assoc. reflexivity.
Qed.
Lemma doc_lines_safe w d : ~ occurs "*/" d -> has_close (doc_lines w d) = false.
Proof.
  intros N. unfold doc_lines. rewrite replace_cut. apply cut_open_safe.
  destruct (doc_sep_close w) as (D & E). apply sep_nl; auto; try discriminate. apply has_close_false. auto.
Qed.
Lemma cut_close_safe s : has_close s = false -> has_close (cut "*" "/" s) = false.
Proof.
  intros H. destruct (has_close (cut "*" "/" s)) eqn:E; auto.
  apply cut_close_exact in E. destruct E as (p & k & q & ->).
  apply has_close_false in H. exfalso. apply H. exists (p +++ "*"), (terminators k +++ "/" +++ q).
  cbn [terminators]. rewrite !sapp_assoc. reflexivity.
Qed.
