(** Lemmas for C65: the parser of Args.v against the spelling of command lines in SpecArgs.v. *)
From Verif Require Import BaseFacts.
From Verif Require Export Args SpecArgs.
From Coq Require Import NArith Lia.

#[global] Instance EqBOk_arg : EqBOk arg_id.
Proof. intros a b. destruct a, b; cbn; split; intro E; try reflexivity; discriminate E. Qed.

(** ** Words *)

Lemma plain_word w : plain w ->
  String.eqb w "--" = false /\ strip_prefix "--" w = None /\
  (strip_prefix "-" w = None \/ strip_prefix "-" w = Some "").
Proof.
  intro P. destruct w as [|c w]; [repeat split; auto|].
  destruct (Ascii.eqb c "-") eqn:E.
  - apply Ascii.eqb_eq in E. subst c. assert (w = "") by (apply P; reflexivity). subst w. repeat split; auto.
  - assert (E' : Ascii.eqb "-" c = false) by now rewrite Ascii.eqb_sym.
    split; [|split; [|left]].
    + destruct (String.eqb (String c w) "--") eqn:F; [|reflexivity].
      apply String.eqb_eq in F. injection F as -> _. discriminate E.
    + cbn [strip_prefix]. now rewrite E'.
    + cbn [strip_prefix]. now rewrite E'.
Qed.
Lemma word_plain w : strip_prefix "-" w = None \/ strip_prefix "-" w = Some "" -> plain w.
Proof.
  intros H r E. subst w. change (strip_prefix "-" ("-" +++ r)) with (Some r) in H.
  destruct H as [H|H]; [discriminate|]. now injection H.
Qed.

Lemma parse_plain_word mt w rest : plain w ->
  parse_words false mt (w :: rest) =
  match parse_plain false mt w with Go mt' => parse_words false mt' rest | Stop p => p end.
Proof.
  intro P. destruct (plain_word w P) as (A & B & C).
  cbn [parse_words]. rewrite A. cbn [negb andb]. rewrite B.
  destruct C as [C|C]; rewrite C; reflexivity.
Qed.
Lemma parse_long_word mt r rest : r <> "" ->
  parse_words false mt (("--" +++ r) :: rest) =
  match parse_long mt r with Go mt' => parse_words false mt' rest | Stop p => p end.
Proof.
  intro P. cbn [parse_words]. destruct r as [|c r]; [congruence|]. reflexivity.
Qed.
Lemma parse_short_word mt c r rest : c <> "-"%char ->
  parse_words false mt (("-" +++ String c r) :: rest) =
  match parse_short mt (String c r) with Go mt' => parse_words false mt' rest | Stop p => p end.
Proof.
  intro P. cbn [parse_words negb andb].
  assert (E : Ascii.eqb "-" c = false) by (apply Ascii.eqb_neq; congruence).
  assert (F : String.eqb ("-" +++ String c r) "--" = false).
  { cbn. rewrite Ascii.eqb_sym, E. reflexivity. }
  rewrite F. change ("-" +++ String c r) with (String "-" (String c r)).
  cbn [strip_prefix]. rewrite Ascii.eqb_refl, E. reflexivity.
Qed.

Lemma split_eq_inv w name o : split_eq w = (name, o) ->
  match o with Some v => w = name +++ "=" +++ v | None => w = name end.
Proof.
  unfold split_eq. destruct (find_char "=" w) as [i|] eqn:F.
  - intro E. injection E as <- <-. revert i F. induction w as [|c w IH]; cbn; intros i F; [discriminate|].
    destruct (Ascii.eqb c "=") eqn:G.
    + injection F as <-. apply Ascii.eqb_eq in G. subst c. reflexivity.
    + destruct (find_char "=" w) as [j|]; [|discriminate]. injection F as <-. cbn.
      f_equal. apply IH. reflexivity.
  - intro E. now injection E as <- <-.
Qed.

(** ** Options by name *)

Definition arg_of (it : item) : arg_id :=
  match it with
  | Dir _ => ARoot
  | Set_ n _ | Flag n => match by_long n with Some a => a | None => ARoot end
  end.
Definition vals_of (it : item) : list string :=
  match it with Dir d => [d] | Set_ _ v => [v] | Flag _ => [] end.
Definition push (m : amap arg_id string) (it : item) : option (amap arg_id string) :=
  store m (arg_of it) (vals_of it).
Fixpoint pushes (m : amap arg_id string) (its : list item) : option (amap arg_id string) :=
  match its with
  | [] => Some m
  | it :: its' => match push m it with Some m' => pushes m' its' | None => None end
  end.

Lemma by_long_inv name a : by_long name = Some a -> arg_long a = Some name.
Proof.
  unfold by_long. intro F. apply find_some in F. destruct F as [_ F].
  destruct (arg_long a) as [n|]; [|discriminate]. apply String.eqb_eq in F. now subst n.
Qed.
Lemma by_short_inv c a : by_short c = Some a -> arg_short a = Some c.
Proof.
  unfold by_short. intro F. apply find_some in F. destruct F as [_ F].
  destruct (arg_short a) as [n|]; [|discriminate]. apply Ascii.eqb_eq in F. now subst n.
Qed.

Lemma value_option n : In n value_options -> exists a, by_long n = Some a /\ takes_value a = true /\ a <> ARoot.
Proof.
  intro I. cbn in I. repeat (destruct I as [<-|I]; [eexists; vm_compute; repeat split; try reflexivity; discriminate|]). destruct I.
Qed.
Lemma flag_option n : In n flag_options -> exists a, by_long n = Some a /\ arg_kind_of a = KFlag.
Proof.
  intro I. cbn in I. repeat (destruct I as [<-|I]; [eexists; vm_compute; split; reflexivity|]). destruct I.
Qed.
Lemma long_value a n : arg_long a = Some n -> takes_value a = true -> In n value_options.
Proof. destruct a; vm_compute; intros E T; try discriminate; injection E as <-; tauto. Qed.
Lemma long_flag a n : arg_long a = Some n -> arg_kind_of a = KFlag -> In n flag_options.
Proof. destruct a; vm_compute; intros E T; try discriminate; injection E as <-; tauto. Qed.

Lemma long_equals mt n v : In n value_options ->
  parse_long mt (n +++ "=" +++ v) = react mt (arg_of (Set_ n v)) [v].
Proof.
  intro I. cbn in I. repeat (destruct I as [<-|I]; [reflexivity|]). destruct I.
Qed.
Lemma long_bare mt n : In n value_options -> parse_long mt n = await mt (arg_of (Set_ n "")) [].
Proof.
  intro I. cbn in I. repeat (destruct I as [<-|I]; [reflexivity|]). destruct I.
Qed.
Lemma long_flagged mt n : In n flag_options -> parse_long mt n = react mt (arg_of (Flag n)) [].
Proof.
  intro I. cbn in I. repeat (destruct I as [<-|I]; [reflexivity|]). destruct I.
Qed.
Lemma short_equals mt c n v : In (c, n) letters ->
  parse_short mt (String c ("=" +++ v)) = react mt (arg_of (Set_ n v)) [v].
Proof.
  intro I. cbn in I. repeat (destruct I as [E|I]; [injection E as <- <-; reflexivity|]). destruct I.
Qed.
Lemma short_attached mt c n v : In (c, n) letters -> v <> "" -> (forall r, v <> "=" +++ r) ->
  parse_short mt (String c v) = react mt (arg_of (Set_ n v)) [v].
Proof.
  intros I NE NQ. destruct v as [|d v]; [congruence|].
  assert (Q : strip_prefix "=" (String d v) = None).
  { cbn [strip_prefix]. destruct (Ascii.eqb "=" d) eqn:E; [|reflexivity].
    apply Ascii.eqb_eq in E. subst d. destruct (NQ v). reflexivity. }
  cbn in I. repeat (destruct I as [E|I]; [injection E as <- <-; unfold parse_short; rewrite Q; reflexivity|]). destruct I.
Qed.
Lemma short_bare mt c n : In (c, n) letters -> parse_short mt (String c "") = await mt (arg_of (Set_ n "")) [].
Proof.
  intro I. cbn in I. repeat (destruct I as [E|I]; [injection E as <- <-; reflexivity|]). destruct I.
Qed.
Lemma letter_option c n : In (c, n) letters -> In n value_options /\ c <> "-"%char.
Proof.
  intro I. cbn in I. repeat (destruct I as [E|I]; [injection E as <- <-; split; [cbn; tauto|discriminate]|]). destruct I.
Qed.
Lemma short_value a c : arg_short a = Some c -> takes_value a = true ->
  exists n, arg_long a = Some n /\ In (c, n) letters.
Proof.
  destruct a; vm_compute; intros E T; try discriminate; injection E as <-; eexists; (split; [reflexivity|tauto]).
Qed.

Lemma arg_of_long a n : arg_long a = Some n -> by_long n = Some a.
Proof. destruct a; vm_compute; intro E; try discriminate; injection E as <-; reflexivity. Qed.

(** ** What is pending *)

Definition waiting (mt : matcher) : Prop := exists a, mt_pending mt = Some (a, []).
Lemma dead rest : forall t mt, resolve_pending mt = None -> ~ waiting mt -> parse_words t mt rest = PError.
Proof.
  induction rest as [|w rest IH]; intros t mt R W; cbn [parse_words]; [now rewrite R|].
  destruct (negb t && String.eqb w "--"); [now apply IH|].
  assert (PP : forall b, parse_plain b mt w = Stop PError).
  { intro b. unfold parse_plain. destruct (mt_pending mt) as [[a [|x l]]|] eqn:E.
    - destruct W. now exists a.
    - now rewrite R.
    - now rewrite R. }
  assert (RE : forall a vs, react mt a vs = Stop PError) by (intros; unfold react; now rewrite R).
  assert (AW : forall a vs, await mt a vs = Stop PError) by (intros; unfold await; now rewrite R).
  assert (PO : forall a o, parse_opt mt a o = Stop PError) by (intros a [v|]; cbn; auto).
  destruct t; [now rewrite PP|].
  destruct (strip_prefix "--" w) as [r|].
  { unfold parse_long. destruct (split_eq r) as [name o]. destruct (by_long name) as [b|]; [|reflexivity].
    destruct (takes_value b); [now rewrite PO|]. destruct o; [reflexivity|now rewrite RE]. }
  destruct (strip_prefix "-" w) as [[|c r]|]; [now rewrite PP| |now rewrite PP].
  unfold parse_short. destruct (by_short c) as [b|]; [|reflexivity].
  destruct (takes_value b); [now rewrite PO|now rewrite RE].
Qed.

Lemma store_none m a : takes_value a = true -> store m a [] = None.
Proof. intro T. unfold store. now rewrite T. Qed.

(** An option that waits for its value gets it from a plain word only *)
Lemma starve_trailing a rest : forall mt, mt_pending mt = Some (a, []) -> takes_value a = true ->
  parse_words true mt rest = PError.
Proof.
  intros mt P T. destruct rest as [|w rest]; cbn [parse_words].
  - unfold resolve_pending. now rewrite P, store_none.
  - cbn [negb andb]. unfold parse_plain. now rewrite P.
Qed.
Lemma starve a mt rest : mt_pending mt = Some (a, []) -> takes_value a = true ->
  match rest with [] => True | w :: _ => ~ plain w end -> parse_words false mt rest = PError.
Proof.
  intros P T NP.
  assert (R : resolve_pending mt = None) by (unfold resolve_pending; now rewrite P, store_none).
  assert (RE : forall a vs, react mt a vs = Stop PError) by (intros; unfold react; now rewrite R).
  assert (AW : forall a vs, await mt a vs = Stop PError) by (intros; unfold await; now rewrite R).
  assert (PO : forall a o, parse_opt mt a o = Stop PError) by (intros x [v|]; cbn; auto).
  destruct rest as [|w rest]; cbn [parse_words]; [now rewrite R|].
  destruct (negb false && String.eqb w "--") eqn:D; [now apply starve_trailing with a|].
  destruct (strip_prefix "--" w) as [r|].
  { unfold parse_long. destruct (split_eq r) as [name o]. destruct (by_long name) as [b|]; [|reflexivity].
    destruct (takes_value b); [now rewrite PO|]. destruct o; [reflexivity|now rewrite RE]. }
  destruct (strip_prefix "-" w) as [[|c r]|] eqn:S; try (destruct NP; apply word_plain; auto; fail).
  unfold parse_short. destruct (by_short c) as [b|]; [|reflexivity].
  destruct (takes_value b); [now rewrite PO|now rewrite RE].
Qed.
Lemma fed a mt w rest : mt_pending mt = Some (a, []) -> plain w ->
  parse_words false mt (w :: rest) =
  parse_words false {| mt_found := mt_found mt; mt_pending := Some (a, [w]) |} rest.
Proof.
  intros P PW. rewrite (parse_plain_word mt w rest PW). unfold parse_plain. now rewrite P.
Qed.

Definition good (mt : matcher) (m : amap arg_id string) : Prop := resolve_pending mt = Some m /\ ~ waiting mt.
Definition after (o : option (amap arg_id string)) (mt : matcher) (words : list string) (rest : list string) : Prop :=
  match o with
  | Some m' => exists mt', good mt' m' /\ parse_words false mt (words ++ rest) = parse_words false mt' rest
  | None => parse_words false mt (words ++ rest) = PError
  end.

Lemma after_react mt m a vals words rest :
  good mt m -> arg_kind_of a <> KHelp -> arg_kind_of a <> KVersion ->
  parse_words false mt (words ++ rest) =
    match react mt a vals with Go mt' => parse_words false mt' rest | Stop p => p end ->
  after (store m a vals) mt words rest.
Proof.
  intros [R _] H V E. unfold after, react in *. rewrite R in E.
  assert (E' : parse_words false mt (words ++ rest) =
               match store m a vals with
               | None => PError
               | Some m' => parse_words false {| mt_found := m'; mt_pending := None |} rest
               end).
  { rewrite E. destruct (arg_kind_of a); try congruence; destruct (store m a vals); reflexivity. }
  destruct (store m a vals) as [m'|]; [|exact E'].
  eexists. split; [|exact E']. split; [reflexivity|]. intros [b W]. discriminate W.
Qed.
Lemma after_pending m a v mt words rest : 
  parse_words false mt (words ++ rest) = parse_words false {| mt_found := m; mt_pending := Some (a, [v]) |} rest ->
  after (store m a [v]) mt words rest.
Proof.
  intro E. unfold after. destruct (store m a [v]) as [m'|] eqn:S.
  - eexists. split; [|exact E]. split; [exact S|]. intros [b W]. discriminate W.
  - rewrite E. apply dead; [exact S|]. intros [b W]. discriminate W.
Qed.

Lemma kinds_value a : takes_value a = true -> arg_kind_of a <> KHelp /\ arg_kind_of a <> KVersion.
Proof. unfold takes_value. destruct (arg_kind_of a); split; congruence. Qed.
Lemma set_arg n v : In n value_options -> by_long n = Some (arg_of (Set_ n v)) /\ takes_value (arg_of (Set_ n v)) = true.
Proof. intro I. destruct (value_option n I) as (a & B & T & _). cbn [arg_of]. rewrite B. auto. Qed.

Lemma await_next mt m n v words rest : good mt m -> In n value_options -> plain v ->
  parse_words false mt (words ++ v :: rest) =
    match await mt (arg_of (Set_ n "")) [] with Go mt' => parse_words false mt' (v :: rest) | Stop p => p end ->
  after (store m (arg_of (Set_ n v)) [v]) mt (words ++ [v]) rest.
Proof.
  intros [R _] I P E. apply after_pending. rewrite <- app_assoc. cbn [app]. rewrite E.
  unfold await. rewrite R. rewrite fed with (a := arg_of (Set_ n "")); auto.
Qed.

Lemma name_ne n r : In n value_options \/ In n flag_options -> n +++ r <> "".
Proof. intros I E. cbn in I. destruct I as [I|I]; repeat (destruct I as [<-|I]; [discriminate|]); destruct I. Qed.
Lemma name_ne0 n : In n value_options \/ In n flag_options -> n <> "".
Proof. intros I E. apply (name_ne n "" I). now rewrite sapp_nil_r. Qed.

(** The directory *)
Lemma plain_good mt m w : good mt m -> forall b, parse_plain b mt w =
  match aget ARoot m with
  | None => Go {| mt_found := m; mt_pending := Some (ARoot, [w]) |}
  | Some _ => Stop PError
  end.
Proof.
  intros [R W] b. unfold parse_plain. destruct (mt_pending mt) as [[a [|x l]]|] eqn:Q; rewrite ?R; auto.
  destruct W. now exists a.
Qed.

Lemma item_step it ws rest mt m : item_words it ws -> good mt m -> after (push m it) mt ws rest.
Proof.
  intros W G. unfold push. destruct W as [d P|n I|n v I|n v I P|c n v I|c n v I NE NQ|c n v I P]; cbn [vals_of].
  - cbn [arg_of]. pose proof (parse_plain_word mt d rest P) as E. rewrite (plain_good mt m) in E by assumption.
    destruct (aget ARoot m) as [x|] eqn:A.
    + unfold after, store. cbn [takes_value arg_kind_of]. rewrite A. destruct (value_ok ARoot d); exact E.
    + apply after_pending. exact E.
  - destruct (flag_option n I) as (a & B & K). assert (Q : arg_of (Flag n) = a) by (cbn [arg_of]; now rewrite B).
    apply after_react; auto; try (rewrite Q, K; discriminate).
    cbn [app]. rewrite parse_long_word by (apply name_ne0; auto). now rewrite long_flagged.
  - destruct (set_arg n v I) as [_ T]. apply kinds_value in T. apply after_react; auto; try apply T.
    cbn [app]. rewrite parse_long_word by (apply name_ne; auto). now rewrite long_equals.
  - apply (await_next mt m n v ["--" +++ n] rest G I P). cbn [app].
    rewrite parse_long_word by (apply name_ne0; auto). now rewrite long_bare.
  - destruct (letter_option c n I) as [J C]. destruct (set_arg n v J) as [_ T]. apply kinds_value in T.
    apply after_react; auto; try apply T. cbn [app]. rewrite parse_short_word by assumption.
    now rewrite (short_equals mt c n v I).
  - destruct (letter_option c n I) as [J C]. destruct (set_arg n v J) as [_ T]. apply kinds_value in T.
    apply after_react; auto; try apply T. cbn [app]. rewrite parse_short_word by assumption.
    now rewrite (short_attached mt c n v I NE NQ).
  - destruct (letter_option c n I) as [J C].
    apply (await_next mt m n v ["-" +++ String c ""] rest G J P). cbn [app].
    rewrite parse_short_word by assumption. now rewrite (short_bare mt c n I).
Qed.

Lemma written_step its ws : written its ws -> forall rest mt m, good mt m -> after (pushes m its) mt ws rest.
Proof.
  induction 1 as [|it ws its ws' W WW IH]; intros rest mt m G; cbn [pushes].
  - exists mt. split; [exact G|reflexivity].
  - pose proof (item_step it ws (ws' ++ rest) mt m W G) as S. unfold after in S.
    destruct (push m it) as [m'|].
    + destruct S as (mt' & G' & E). specialize (IH rest mt' m' G'). unfold after in *.
      destruct (pushes m' its) as [m2|].
      * destruct IH as (mt2 & G2 & E2). exists mt2. split; [exact G2|]. rewrite <- app_assoc. congruence.
      * rewrite <- app_assoc. congruence.
    + unfold after. rewrite <- app_assoc. exact S.
Qed.

Definition found (o : option (amap arg_id string)) : parsed := match o with Some m => PFound m | None => PError end.
Lemma pushes_app m its its' : pushes m (its ++ its') = match pushes m its with Some m' => pushes m' its' | None => None end.
Proof. revert m. induction its as [|it its IH]; intro m; cbn; [reflexivity|]. destruct (push m it); auto. Qed.

(** A spelled command line is understood *)
Lemma spelled_parses its argv : spelled its argv -> forall mt m, good mt m ->
  parse_words false mt argv = found (pushes m its).
Proof.
  intros S mt m G. destruct S as [its ws W|its ws W|its ws d W].
  - pose proof (written_step its ws W [] mt m G) as A. unfold after in A. rewrite app_nil_r in A.
    destruct (pushes m its); [|exact A]. destruct A as (mt' & [R _] & ->). cbn. now rewrite R.
  - pose proof (written_step its ws W ["--"] mt m G) as A. unfold after in A.
    destruct (pushes m its); [|exact A]. destruct A as (mt' & [R _] & ->). cbn. now rewrite R.
  - pose proof (written_step its ws W ["--"; d] mt m G) as A. unfold after in A. rewrite pushes_app.
    destruct (pushes m its) as [m'|]; [|exact A]. destruct A as (mt' & [R NW] & ->).
    cbn [parse_words]. cbn [negb andb String.eqb]. change (String.eqb "--" "--") with true. cbn iota.
    rewrite (plain_good mt' m') by (split; assumption). cbn [pushes push arg_of vals_of].
    destruct (aget ARoot m') as [x|] eqn:Q.
    + unfold push, store. cbn [arg_of vals_of takes_value arg_kind_of]. rewrite Q. now destruct (value_ok ARoot d).
    + cbn [resolve_pending mt_pending mt_found]. unfold push. cbn [arg_of vals_of].
      now destruct (store m' ARoot [d]).
Qed.
Lemma written_help its ws w rest : written its ws -> (asks_help w \/ asks_version w) -> forall mt m, good mt m ->
  (asks_help w -> parse_words false mt (ws ++ w :: rest) = match pushes m its with Some _ => PHelp | None => PError end) /\
  (asks_version w -> parse_words false mt (ws ++ w :: rest) = match pushes m its with Some _ => PVersion | None => PError end).
Proof.
  intros W _ mt m G. pose proof (written_step its ws W (w :: rest) mt m G) as A. unfold after in A.
  destruct (pushes m its) as [m'|]; [|auto]. destruct A as (mt' & [R _] & ->).
  split; intros [->|[r ->]].
  - cbn [parse_words]. change (negb false && String.eqb "--help" "--") with false. cbn iota.
    change (strip_prefix "--" "--help") with (Some "help"). cbn iota.
    change (parse_long mt' "help") with (react mt' AHelp []). unfold react. now rewrite R.
  - change ("-h" +++ r) with ("-" +++ String "h" r). rewrite (parse_short_word mt' "h" r rest) by discriminate.
    change (parse_short mt' (String "h" r)) with (react mt' AHelp []). unfold react. now rewrite R.
  - cbn [parse_words]. change (negb false && String.eqb "--version" "--") with false. cbn iota.
    change (strip_prefix "--" "--version") with (Some "version"). cbn iota.
    change (parse_long mt' "version") with (react mt' AVersion []). unfold react. now rewrite R.
  - change ("-V" +++ r) with ("-" +++ String "V" r). rewrite (parse_short_word mt' "V" r rest) by discriminate.
    change (parse_short mt' (String "V" r)) with (react mt' AVersion []). unfold react. now rewrite R.
Qed.

(** ** Every command line that is understood is spelled *)

Definition sound_end (m : amap arg_id string) (argv : list string) (p : parsed) : Prop :=
  match p with
  | PFound mf => exists its, spelled its argv /\ pushes m its = Some mf
  | PHelp => exists its ws w rest m', argv = ws ++ w :: rest /\ written its ws /\ asks_help w /\ pushes m its = Some m'
  | PVersion => exists its ws w rest m', argv = ws ++ w :: rest /\ written its ws /\ asks_version w /\ pushes m its = Some m'
  | PError => True
  end.

Lemma sound_cons it ws m m' rest p : item_words it ws -> push m it = Some m' -> sound_end m' rest p ->
  sound_end m (ws ++ rest) p.
Proof.
  intros W P S. destruct p as [mf| | |]; cbn in *; auto.
  - destruct S as (its & SP & PS). exists (it :: its). split; [|cbn; now rewrite P].
    destruct SP as [its ws' W'|its ws' W'|its ws' d W'].
    + apply spelled_plain. now constructor.
    + rewrite app_assoc. apply spelled_dashes. now constructor.
    + rewrite app_assoc. change (it :: its ++ [Dir d]) with ((it :: its) ++ [Dir d]). apply spelled_last. now constructor.
  - destruct S as (its & ws' & w & r & m2 & -> & W' & A & PS). exists (it :: its), (ws ++ ws'), w, r, m2.
    rewrite <- app_assoc. repeat split; auto; [now constructor|]. cbn. now rewrite P.
  - destruct S as (its & ws' & w & r & m2 & -> & W' & A & PS). exists (it :: its), (ws ++ ws'), w, r, m2.
    rewrite <- app_assoc. repeat split; auto; [now constructor|]. cbn. now rewrite P.
Qed.

Lemma sound_item it ws mt m rest : item_words it ws -> good mt m ->
  (forall mt' m', good mt' m' -> sound_end m' rest (parse_words false mt' rest)) ->
  sound_end m (ws ++ rest) (parse_words false mt (ws ++ rest)).
Proof.
  intros W G H. pose proof (item_step it ws rest mt m W G) as A. unfold after in A.
  destruct (push m it) as [m'|] eqn:P.
  - destruct A as (mt' & G' & ->). apply sound_cons with it m'; auto.
  - rewrite A. exact I.
Qed.

Lemma by_long_name name a : by_long name = Some a -> a <> ARoot /\ (takes_value a = true -> In name value_options) /\
  (arg_kind_of a = KFlag -> In name flag_options) /\ (arg_kind_of a = KHelp -> name = "help") /\
  (arg_kind_of a = KVersion -> name = "version").
Proof.
  intro B. apply by_long_inv in B. repeat split.
  - intros ->. discriminate B.
  - intro T. now apply long_value with a.
  - intro T. now apply long_flag with a.
  - destruct a; try discriminate. intro. vm_compute in B. now injection B.
  - destruct a; try discriminate. intro. vm_compute in B. now injection B.
Qed.

Lemma sound_trailing mt m rest : good mt m ->
  sound_end m ("--" :: rest) (parse_words true mt rest).
Proof.
  intros G. pose proof G as [R NW].
  destruct rest as [|d [|d2 rest]].
  - cbn. rewrite R. exists []. split; [apply (spelled_dashes [] []); constructor|reflexivity].
  - cbn [parse_words negb andb]. rewrite (plain_good mt m) by assumption.
    destruct (aget ARoot m) eqn:Q; [exact I|]. unfold resolve_pending. cbn [mt_pending mt_found].
    destruct (store m ARoot [d]) as [m'|] eqn:S; [|exact I].
    exists [Dir d]. split; [apply (spelled_last [] [] d); constructor|]. cbn [pushes]. unfold push. cbn [arg_of vals_of]. now rewrite S.
  - cbn [parse_words negb andb]. rewrite (plain_good mt m) by assumption.
    destruct (aget ARoot m) eqn:Q; [exact I|].
    unfold parse_plain. cbn [mt_pending]. unfold resolve_pending. cbn [mt_pending mt_found].
    destruct (store m ARoot [d]) as [m'|] eqn:S; [|exact I].
    assert (X : aget ARoot m' = Some d).
    { unfold store in S. cbn in S. destruct (negb (d =? "")%string); [|discriminate]. rewrite Q in S.
      injection S as <-. apply aget_aset_same. }
    rewrite X. exact I.
Qed.

Lemma letter_of c n : In (c, n) letters -> by_short c = by_long n.
Proof. intro I. cbn in I. repeat (destruct I as [E|I]; [injection E as <- <-; reflexivity|]). destruct I. Qed.

Theorem words_sound k : forall argv mt m, List.length argv <= k -> good mt m ->
  sound_end m argv (parse_words false mt argv).
Proof.
  induction k as [|k IH]; intros argv mt m L G; pose proof G as [R NW].
  { destruct argv; [|cbn in L; lia]. cbn. rewrite R. exists []. split; [apply spelled_plain; constructor|reflexivity]. }
  destruct argv as [|w argv].
  { cbn. rewrite R. exists []. split; [apply spelled_plain; constructor|reflexivity]. }
  assert (IH' : forall mt' m', good mt' m' -> sound_end m' argv (parse_words false mt' argv)).
  { intros. apply IH; auto. cbn in L. lia. }
  (* an option that waits for a value *)
  assert (NEXT : forall n (word : string), In n value_options -> (forall v, plain v -> item_words (Set_ n v) [word; v]) ->
            parse_words false mt (word :: argv) =
              match await mt (arg_of (Set_ n "")) [] with Go mt' => parse_words false mt' argv | Stop p => p end ->
            sound_end m (word :: argv) (parse_words false mt (word :: argv))).
  { intros n word IN IW E. destruct (set_arg n "" IN) as [_ T].
    destruct argv as [|v rest].
    - rewrite E. unfold await. rewrite R. rewrite starve with (a := arg_of (Set_ n "")); auto. exact I.
    - destruct (strip_prefix "-" v) as [[|c r]|] eqn:SP.
      + apply (sound_item (Set_ n v) [word; v] mt m rest); auto; [apply IW, word_plain; auto|].
        intros. apply IH; auto. cbn in L. lia.
      + rewrite E. unfold await. rewrite R. rewrite starve with (a := arg_of (Set_ n "")); auto; [exact I|].
        intro P. apply strip_prefix_Some in SP. specialize (P _ SP). discriminate P.
      + apply (sound_item (Set_ n v) [word; v] mt m rest); auto; [apply IW, word_plain; auto|].
        intros. apply IH; auto. cbn in L. lia. }
  destruct (String.eqb w "--") eqn:D.
  { apply String.eqb_eq in D. subst w. cbn [parse_words]. change (negb false && String.eqb "--" "--") with true. cbn iota.
    now apply sound_trailing. }
  destruct (strip_prefix "--" w) as [r|] eqn:S2.
  { apply strip_prefix_Some in S2. subst w.
    assert (NE : r <> "") by (intros ->; discriminate D).
    pose proof (parse_long_word mt r argv NE) as E. unfold parse_long in E.
    destruct (split_eq r) as [name o] eqn:SE. pose proof (split_eq_inv r name o SE) as RE.
    destruct (by_long name) as [a|] eqn:B; [|rewrite E; exact I].
    destruct (by_long_name name a B) as (NR & TV & TF & TH & TVE).
    destruct (takes_value a) eqn:T.
    - destruct o as [v|].
      + subst r. apply (sound_item (Set_ name v) ["--" +++ name +++ "=" +++ v] mt m argv); auto. constructor. auto.
      + subst r. apply (NEXT name); auto.
        * intros v P. constructor; auto.
        * rewrite E. cbn [parse_opt arg_of]. now rewrite B.
    - destruct o as [v|]; [rewrite E; exact I|]. subst r.
      destruct (arg_kind_of a) eqn:K; try (unfold takes_value in T; rewrite K in T; discriminate).
      + apply (sound_item (Flag name) ["--" +++ name] mt m argv); auto. constructor. auto.
      + rewrite E. unfold react. rewrite R, K. exists [], [], ("--" +++ name), argv, m.
        repeat split; [constructor|]. left. now rewrite (TH eq_refl).
      + rewrite E. unfold react. rewrite R, K. exists [], [], ("--" +++ name), argv, m.
        repeat split; [constructor|]. left. now rewrite (TVE eq_refl). }
  destruct (strip_prefix "-" w) as [[|c r]|] eqn:S1.
  - apply (sound_item (Dir w) [w] mt m argv); auto. constructor. apply word_plain. auto.
  - apply strip_prefix_Some in S1. subst w.
    assert (NC : c <> "-"%char) by (intros ->; discriminate S2).
    pose proof (parse_short_word mt c r argv NC) as E. unfold parse_short in E.
    destruct (by_short c) as [a|] eqn:B; [|rewrite E; exact I].
    apply by_short_inv in B.
    destruct (takes_value a) eqn:T.
    + destruct (short_value a c B T) as (n & LN & IL). destruct (letter_option c n IL) as [IN _].
      destruct r as [|d r].
      * apply (NEXT n); auto.
        -- intros v P. now constructor.
        -- rewrite E. cbn [parse_opt arg_of]. now rewrite (arg_of_long a n LN).
      * destruct (strip_prefix "=" (String d r)) as [v|] eqn:SQ.
        -- apply strip_prefix_Some in SQ. rewrite SQ.
           apply (sound_item (Set_ n v) ["-" +++ String c ("=" +++ v)] mt m argv); auto. now constructor.
        -- apply (sound_item (Set_ n (String d r)) ["-" +++ String c (String d r)] mt m argv); auto.
           apply iw_letter_attached; [exact IL|discriminate|]. intros x Q. rewrite Q in SQ. now rewrite strip_prefix_app in SQ.
    + rewrite E. unfold react. rewrite R.
      destruct a; try discriminate B; try discriminate T; injection B as <-; cbn [arg_kind_of].
      * exists [], [], ("-" +++ String "h" r), argv, m. repeat split; [constructor|]. right. now exists r.
      * exists [], [], ("-" +++ String "V" r), argv, m. repeat split; [constructor|]. right. now exists r.
  - apply (sound_item (Dir w) [w] mt m argv); auto. constructor. apply word_plain. auto.
Qed.

(** ** Numerals *)

Lemma digit_spec c d : digit c = Some (N.of_nat d) <-> digit_value c d.
Proof.
  unfold digit, digit_value. split.
  - intro H. destruct (N.leb 48 (N_of_ascii c) && N.leb (N_of_ascii c) 57) eqn:E; [|discriminate].
    apply andb_prop in E. destruct E as [A B]. apply N.leb_le in A. apply N.leb_le in B. injection H as H.
    split; [lia|]. rewrite <- (ascii_N_embedding c). unfold ascii_of_nat. f_equal. lia.
  - intros [L ->]. unfold ascii_of_nat. 
    rewrite N_ascii_embedding by lia. 
    replace (N.leb 48 (N.of_nat (48 + d))) with true by (symmetry; apply N.leb_le; lia).
    replace (N.leb (N.of_nat (48 + d)) 57) with true by (symmetry; apply N.leb_le; lia).
    cbn [andb]. f_equal. lia.
Qed.
Lemma digit_some c x : digit c = Some x -> digit_value c (N.to_nat x).
Proof. intro H. apply digit_spec. now rewrite N2Nat.id. Qed.

Definition dstep (o : option N) (c : ascii) : option N :=
  match o with
  | None => None
  | Some acc => match digit c with
                | None => None
                | Some d => if N.ltb (acc * 10 + d) 18446744073709551616 then Some (acc * 10 + d)%N else None
                end
  end.
Lemma read_digits_snoc s c : forall acc, read_digits acc (s +++ String c "") = dstep (read_digits acc s) c.
Proof.
  induction s as [|b s IH]; intro acc.
  - cbn [append read_digits dstep]. destruct (digit c); [|reflexivity]. destruct (N.ltb _ _); reflexivity.
  - cbn [append read_digits]. destruct (digit b); [|reflexivity]. destruct (N.ltb _ _); [apply IH|reflexivity].
Qed.
Lemma snoc_cases s : s = "" \/ exists t c, s = t +++ String c "".
Proof.
  induction s as [|b s IH]; [now left|right]. destruct IH as [->|(t & c & ->)].
  - now exists "", b.
  - now exists (String b t), c.
Qed.
Lemma decimal_read s n : decimal s n -> (N.of_nat n < 2 ^ 64)%N -> read_digits 0 s = Some (N.of_nat n).
Proof.
  change (2 ^ 64)%N with 18446744073709551616%N.
  induction 1 as [c d V|s n c d D IH V]; intro B.
  - cbn [read_digits]. apply digit_spec in V. rewrite V. cbn [N.mul N.add].
    replace (N.ltb _ _) with true by (symmetry; apply N.ltb_lt; lia). reflexivity.
  - rewrite read_digits_snoc, IH by lia. cbn [dstep]. apply digit_spec in V. rewrite V.
    replace (N.ltb _ _) with true by (symmetry; apply N.ltb_lt; lia). f_equal. lia.
Qed.
Lemma read_decimal k : forall s r, String.length s <= k -> s <> "" -> read_digits 0 s = Some r ->
  decimal s (N.to_nat r) /\ (r < 18446744073709551616)%N.
Proof.
  induction k as [|k IH]; intros s r L NE RD; [destruct s; [congruence|cbn in L; lia]|].
  destruct (snoc_cases s) as [->|(t & c & ->)]; [congruence|].
  rewrite read_digits_snoc in RD. unfold dstep in RD.
  destruct (read_digits 0 t) as [q|] eqn:Q; [|discriminate].
  destruct (digit c) as [d|] eqn:DC; [|discriminate].
  destruct (N.ltb _ _) eqn:LT; [|discriminate]. injection RD as <-. apply N.ltb_lt in LT. split; [|exact LT].
  destruct t as [|b t].
  - cbn in Q. injection Q as <-. cbn [append]. replace (N.to_nat (0 * 10 + d)) with (N.to_nat d) by lia.
    constructor. now apply digit_some.
  - replace (N.to_nat (q * 10 + d)) with (10 * N.to_nat q + N.to_nat d) by lia. constructor; [|now apply digit_some].
    apply (IH (String b t) q); auto; [|discriminate]. rewrite slen_app in L. cbn in *. lia.
Qed.
Lemma decimal_first s n : decimal s n -> exists c s' d, s = String c s' /\ digit_value c d.
Proof.
  induction 1 as [c d V|s n c d D IH V]; [now exists c, "", d|].
  destruct IH as (c' & s' & d' & -> & V'). now exists c', (s' +++ String c ""), d'.
Qed.
Lemma read_usize_spec v n : read_usize v = Some n <-> numeral v n.
Proof.
  unfold read_usize, numeral. change (2 ^ 64)%N with 18446744073709551616%N. split.
  - intro H. set (ds := match strip_prefix "+" v with Some r => r | None => v end) in *.
    assert (V : v = ds \/ v = "+" +++ ds).
    { unfold ds. destruct (strip_prefix "+" v) as [r|] eqn:S; auto. right. now apply strip_prefix_Some. }
    assert (NE : ds <> "") by (intro E; rewrite E in H; discriminate H).
    assert (H' : option_map N.to_nat (read_digits 0 ds) = Some n) by (destruct ds; [congruence|exact H]).
    destruct (read_digits 0 ds) as [r|] eqn:RD; [|discriminate]. injection H' as <-.
    destruct (read_decimal (String.length ds) ds r) as [D B]; auto. split; [exists ds; auto|lia].
  - intros [(s & V & D) B].
    assert (E : match strip_prefix "+" v with Some r => r | None => v end = s).
    { destruct V as [->| ->]; [|now rewrite strip_prefix_app].
      destruct (decimal_first s n D) as (c & s' & d & -> & [L C]). cbn [strip_prefix].
      destruct (Ascii.eqb "+" c) eqn:P; [|reflexivity]. apply Ascii.eqb_eq in P. subst c. exfalso.
      do 10 (destruct d as [|d]; [discriminate P|]). lia. }
    rewrite E. pose proof (decimal_read s n D B) as RD.
    destruct (decimal_first s n D) as (c & s' & d & -> & _). rewrite RD. cbn [option_map]. now rewrite Nat2N.id.
Qed.

(** ** Found arguments *)

Definition entry (it : item) : arg_id * string :=
  (arg_of it, match it with Dir d => d | Set_ _ v => v | Flag _ => "true" end).

Lemma value_ok_spec it : item_ok it -> takes_value (arg_of it) = true -> value_ok (arg_of it) (snd (entry it)) = true.
Proof.
  destruct it as [d|n v|n]; cbn [item_ok snd entry].
  - intros NE _. cbn. destruct (String.eqb d "") eqn:E; [|reflexivity]. apply String.eqb_eq in E. congruence.
  - intros (IN & P & NUM) _. cbn in IN.
    repeat (destruct IN as [<-|IN];
      [try reflexivity; try (specialize (P ltac:(cbn; tauto)); change (negb (String.eqb v "") = true);
                  destruct (String.eqb v "") eqn:E; [apply String.eqb_eq in E; congruence|reflexivity]);
       try (specialize (NUM ltac:(cbn; tauto)); destruct NUM as [k K]; apply read_usize_spec in K;
            change (match read_usize v with Some _ => true | None => false end = true); now rewrite K)|]). destruct IN.
  - intros IF T. destruct (flag_option n IF) as (a & B & K). cbn [arg_of] in T. rewrite B in T.
    unfold takes_value in T. rewrite K in T. discriminate.
Qed.
Definition named (it : item) : Prop :=
  match it with Dir _ => True | Set_ n _ => In n value_options | Flag n => In n flag_options end.
Lemma words_named it ws : item_words it ws -> named it.
Proof.
  intro W. destruct W as [d P|n I|n v I|n v I P|c n v I|c n v I NE NQ|c n v I P]; cbn; auto; now destruct (letter_option c n I).
Qed.
Lemma ok_value_spec it : named it -> (takes_value (arg_of it) = true -> value_ok (arg_of it) (snd (entry it)) = true) -> item_ok it.
Proof.
  intros X V. destruct it as [d|n v|n]; cbn [item_ok snd entry named] in *; auto.
  - intros ->. now specialize (V eq_refl).
  - split; [exact X|]. destruct (set_arg n v X) as [_ T]. specialize (V T). clear T.
    split; intro I; cbn in I.
    + destruct I as [<-|[<-|[]]]; intros ->; discriminate V.
    + destruct I as [<-|[]]. change (match read_usize v with Some _ => true | None => false end = true) in V.
      destruct (read_usize v) as [k|] eqn:K; [|discriminate]. exists k. now apply read_usize_spec.
Qed.

Lemma entry_vals it : named it -> vals_of it = if takes_value (arg_of it) then [snd (entry it)] else [].
Proof.
  intro X. destruct it as [d|n v|n]; cbn [vals_of entry snd named] in *.
  - reflexivity.
  - destruct (set_arg n v X) as [_ T]. now rewrite T.
  - destruct (flag_option n X) as (a & B & K). cbn [arg_of]. rewrite B. unfold takes_value. now rewrite K.
Qed.
Lemma entry_true it : named it -> takes_value (arg_of it) = false -> snd (entry it) = "true".
Proof.
  intros X T. destruct it as [d|n v|n]; [discriminate T| |reflexivity].
  destruct (set_arg n v X) as [_ T']. congruence.
Qed.

Lemma push_spec it m m' : named it ->
  (push m it = Some m' <->
   item_ok it /\ aget (arg_of it) m = None /\ m' = aset (arg_of it) (snd (entry it)) m).
Proof.
  intro W. unfold push. rewrite (entry_vals it W). unfold store. 
  destruct (takes_value (arg_of it)) eqn:T.
  - split.
    + destruct (value_ok _ _) eqn:V; [|discriminate]. destruct (aget _ m) eqn:A; [discriminate|].
      intro E. injection E as <-. split; [|auto]. apply ok_value_spec; auto.
    + intros (OK & A & ->). rewrite (value_ok_spec it OK T), A. reflexivity.
  - rewrite (entry_true it W T). split.
    + destruct (aget _ m) eqn:A; [discriminate|]. intro E. injection E as <-. split; [|auto].
      apply ok_value_spec; auto. congruence.
    + intros (OK & A & ->). now rewrite A.
Qed.

Lemma pushes_found its : forall m mf, Forall named its -> 
  (pushes m its = Some mf ->
   Forall item_ok its /\ NoDup (List.map arg_of its) /\
   (forall it, In it its -> aget (arg_of it) m = None) /\
   (forall a v, aget a mf = Some v <-> aget a m = Some v \/ In (a, v) (List.map entry its))).
Proof.
  induction its as [|it its IH]; intros m mf W P; cbn in *.
  - injection P as <-. repeat split; try constructor; try easy; tauto.
  - inversion_clear W as [|? ? Wi Wr].
    destruct (push m it) as [m'|] eqn:PI; [|discriminate].
    apply (push_spec it m m' Wi) in PI. destruct PI as (OK & A & ->).
    destruct (IH _ mf Wr P) as (OKs & ND & FR & GET).
    assert (FR' : forall x, In x its -> arg_of x <> arg_of it /\ aget (arg_of x) m = None).
    { intros x I. specialize (FR x I). rewrite aget_aset in FR. destruct (eqb (arg_of x) (arg_of it)) eqn:E; [discriminate|].
      apply BaseFacts.eqb_neq in E. auto. }
    repeat split.
    + constructor; auto.
    + constructor; auto. intro I. apply in_map_iff in I. destruct I as (x & E & I). now destruct (FR' x I).
    + intros x [<-|I]; [exact A|]. now destruct (FR' x I).
    + intro E. apply GET in E. rewrite aget_aset in E. destruct E as [E|E]; [|auto].
      destruct (eqb a (arg_of it)) eqn:Q; [|auto]. apply eqb_ok in Q. subst a. injection E as <-. right; left. reflexivity.
    + intro E. apply GET. rewrite aget_aset. destruct (eqb a (arg_of it)) eqn:Q.
      * apply eqb_ok in Q. subst a. destruct E as [E|[E|E]].
        -- congruence.
        -- left. injection E as E. cbn [entry snd]. now rewrite E.
        -- exfalso. apply in_map_iff in E. destruct E as (x & E & I). injection E as E _. now destruct (FR' x I).
      * apply BaseFacts.eqb_neq in Q. destruct E as [E|[E|E]]; auto. injection E as E _. congruence.
Qed.

Lemma pushes_some its : forall m, Forall named its ->
  Forall item_ok its -> NoDup (List.map arg_of its) -> (forall it, In it its -> aget (arg_of it) m = None) ->
  exists mf, pushes m its = Some mf.
Proof.
  induction its as [|it its IH]; intros m W OK ND FR; cbn; [eauto|].
  inversion_clear W as [|? ? Wi Wr]. inversion_clear OK. inversion_clear ND as [|? ? NI ND'].
  assert (P : push m it = Some (aset (arg_of it) (snd (entry it)) m)).
  { apply push_spec; auto. repeat split; auto. apply FR. now left. }
  rewrite P. apply IH; auto. intros x I. rewrite aget_aset.
  destruct (eqb (arg_of x) (arg_of it)) eqn:E; [|apply FR; now right].
  apply eqb_ok in E. destruct NI. rewrite <- E. now apply in_map.
Qed.

Lemma by_long_inj n n' a : by_long n = Some a -> by_long n' = Some a -> n = n'.
Proof. intros A B. apply by_long_inv in A. apply by_long_inv in B. congruence. Qed.
Lemma subject_arg x y : item_ok x -> item_ok y -> (subject x = subject y <-> arg_of x = arg_of y).
Proof.
  assert (N : forall it, item_ok it -> match subject it with
                                       | None => arg_of it = ARoot
                                       | Some n => by_long n = Some (arg_of it) /\ arg_of it <> ARoot end).
  { intros [d|n v|n]; cbn [item_ok subject arg_of].
    - auto.
    - intros (I & _). destruct (value_option n I) as (a & B & _ & NR). rewrite B. auto.
    - intros I. destruct (flag_option n I) as (a & B & K). rewrite B. split; auto. intros ->. discriminate K. }
  intros X Y. apply N in X. apply N in Y. destruct (subject x), (subject y).
  - destruct X as [X _], Y as [Y _]. split; intro E.
    + congruence.
    + f_equal. rewrite E in X. eapply by_long_inj; eauto.
  - destruct X as [_ X]. split; intro; congruence.
  - destruct Y as [_ Y]. split; intro; congruence.
  - split; congruence.
Qed.
Lemma NoDup_map_like {A B C} (f : A -> B) (g : A -> C) l :
  (forall x y, In x l -> In y l -> g x = g y -> f x = f y) -> NoDup (List.map f l) -> NoDup (List.map g l).
Proof.
  induction l as [|x l IH]; cbn; intros H ND; [constructor|]. inversion_clear ND as [|? ? NI ND'].
  constructor; [|apply IH; auto]. intro I. apply in_map_iff in I. destruct I as (y & E & I). destruct NI.
  rewrite <- (H y x); auto. now apply in_map.
Qed.

Lemma consistent_iff its : Forall named its ->
  (consistent its <-> exists mf, pushes [] its = Some mf).
Proof.
  intro W. split.
  - intros [OK ND]. apply pushes_some; auto. rewrite Forall_forall in OK.
    apply NoDup_map_like with subject; auto. intros x y I J E. apply subject_arg; auto.
  - intros [mf P]. destruct (pushes_found its [] mf W P) as (OK & ND & _). split; [exact OK|].
    rewrite Forall_forall in OK. apply NoDup_map_like with arg_of; auto. intros x y I J E. apply subject_arg; auto.
Qed.

Lemma written_items its ws : written its ws -> Forall named its.
Proof. induction 1; constructor; eauto using words_named. Qed.
Lemma spelled_items its argv : spelled its argv -> Forall named its.
Proof.
  intros [its' ws W|its' ws W|its' ws d W]; try now apply written_items with ws.
  apply Forall_app. split; [now apply written_items with ws|]. repeat constructor.
Qed.
