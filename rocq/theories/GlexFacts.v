(** Lemmas about Gql.v: the tokens against the specification. *)
From Verif Require Import Gql SpecGtext BaseFacts.
From Coq Require Import Lia.

Lemma code_eq c n : N.eqb (code c) n = true -> c = ascii_of_N n.
Proof. intros H. apply N.eqb_eq in H. rewrite <- H. symmetry. apply ascii_N_embedding. Qed.
Lemma code_neq c n : (n < 256)%N -> N.eqb (code c) n = false -> c <> ascii_of_N n.
Proof. intros B H E. apply N.eqb_neq in H. apply H. rewrite E. apply N_ascii_embedding. exact B. Qed.
Ltac byte H := match type of H with
  | N.eqb (code ?c) ?n = true => apply code_eq in H; let m := eval vm_compute in (ascii_of_N n) in change (ascii_of_N n) with m in H
  | N.eqb (code ?c) ?n = false => apply code_neq in H; [|reflexivity]; let m := eval vm_compute in (ascii_of_N n) in change (ascii_of_N n) with m in H
  end.

(** ** Ignored text *)
Definition skips (c : ascii) : bool := existsb (N.eqb (code c)) [13; 9; 10; 32; 44; 35; 239]%N.
Lemma skip_fresh c r p : skips c = false -> skip_blank false (String c r) p = (String c r, p).
Proof.
  intros S. cbn in S. repeat (apply orb_false_iff in S; destruct S as [? S]). cbn [skip_blank].
  repeat match goal with H : _ = false |- _ => rewrite H end. cbn. destruct r as [|d [|e r']]; reflexivity.
Qed.
Lemma skip_comment b : forall c s p, all (fun d => ~ line_end d) b -> line_end c -> skip_blank true (b +++ String c s) p = skip_blank false s (to_below p).
Proof.
  induction b as [|d b IH]; intros c s p A C; cbn [all] in A; cbn [String.append skip_blank].
  - destruct C as [-> | ->]; reflexivity.
  - destruct A as [D A]. destruct (N.eqb (code d) 13) eqn:E1; [byte E1; exfalso; apply D; right; auto|].
    destruct (N.eqb (code d) 10) eqn:E2; [byte E2; exfalso; apply D; left; auto|]. cbn. apply IH; auto.
Qed.
Lemma skip_last b : forall p, all (fun d => ~ line_end d) b -> skip_blank true b p = ("", p).
Proof.
  induction b as [|d b IH]; intros p A; cbn [all] in A; cbn [skip_blank]; auto.
  destruct A as [D A]. destruct (N.eqb (code d) 13) eqn:E1; [byte E1; exfalso; apply D; right; auto|].
  destruct (N.eqb (code d) 10) eqn:E2; [byte E2; exfalso; apply D; left; auto|]. cbn. apply IH; auto.
Qed.
Lemma skip_gap p w q : gap p w q -> forall s, skip_blank false (w +++ s) p = skip_blank false s q.
Proof.
  intros G. induction G as [p|p w q G IH|p w q G IH|p w q G IH|p w q G IH|p w q G IH|p w q G IH|p b c w q A C G IH]; intros s; auto; try exact (IH s).
  change (String "#" (b +++ String c w) +++ s) with (String "#" ((b +++ String c w) +++ s)).
  rewrite sapp_assoc. change (skip_blank true (b +++ String c (w +++ s)) p = skip_blank false s q).
  rewrite skip_comment; auto.
Qed.
Lemma skip_last_gap p w : last_gap p w -> exists q, skip_blank false w p = ("", q).
Proof.
  intros [[q G]|(a & b & q & -> & G & A)].
  - exists q. pose proof (skip_gap _ _ _ G "") as E. rewrite sapp_nil_r in E. exact E.
  - exists q. rewrite (skip_gap _ _ _ G). apply (skip_last b q). auto.
Qed.
Definition passes (p : pos) (s s' : string) (p' : pos) : Prop := (exists w, s = w +++ s' /\ gap p w p') \/ (s' = "" /\ last_gap p s).
Lemma passes_step p q x s s' p' : (forall w r, gap q w r -> gap p (x +++ w) r) -> passes q s s' p' -> passes p (x +++ s) s' p'.
Proof.
  intros H [(w & -> & G)|[-> [[r G]|(a & b & r & -> & G & A)]]].
  - left. exists (x +++ w). rewrite sapp_assoc. auto.
  - right. split; auto. left. eauto.
  - right. split; auto. right. exists (x +++ a), b, r. rewrite sapp_assoc. auto.
Qed.
Definition ended (p : pos) (s s' : string) (p' : pos) : Prop :=
  (exists b c z, s = b +++ String c z /\ all (fun d => ~ line_end d) b /\ line_end c /\ passes (to_below p) z s' p') \/
  (s' = "" /\ all (fun d => ~ line_end d) s).
Lemma ended_passes p s s' p' : ended p s s' p' -> passes p (String "#" s) s' p'.
Proof.
  intros [(b & c & z & -> & A & C & P)|[-> A]].
  - replace (String "#" (b +++ String c z)) with (String "#" (b +++ just c) +++ z).
    + eapply passes_step; [|exact P]. intros w r G. change (gap p (String "#" ((b +++ just c) +++ w)) r).
      rewrite sapp_assoc. constructor; auto.
    + change (String "#" ((b +++ just c) +++ z) = String "#" (b +++ String c z)). rewrite sapp_assoc. reflexivity.
  - right. split; auto. right. exists "", s, p. repeat split; auto. constructor.
Qed.
Lemma skip_sound : forall n s, String.length s <= n -> forall p s' p',
  (skip_blank false s p = (s', p') -> passes p s s' p') /\
  (skip_blank true s p = (s', p') -> ended p s s' p').
Proof.
  induction n as [|n IH]; intros s L p s' p'.
  - destruct s; [|cbn in L; lia]. split; intros E; injection E as <- <-.
    + left. exists "". split; auto. constructor.
    + right. split; auto. exact Logic.I.
  - destruct s as [|c s].
    { split; intros E; injection E as <- <-.
      - left. exists "". split; auto. constructor.
      - right. split; auto. exact Logic.I. }
    cbn in L. assert (Ls : String.length s <= n) by lia. pose proof (IH s Ls) as I. split; intros E; cbn [skip_blank] in E.
    + destruct (N.eqb (code c) 13) eqn:E1; [byte E1; subst; apply (passes_step p p (just (ascii_of_nat 13))); [intros; constructor; auto|apply I; exact E]|].
      destruct (N.eqb (code c) 9) eqn:E2; [byte E2; subst; apply (passes_step p (to_right 8 p) (just (ascii_of_nat 9))); [intros; constructor; auto|apply I; exact E]|].
      destruct (N.eqb (code c) 10) eqn:E3; [byte E3; subst; apply (passes_step p (to_below p) (just (ascii_of_nat 10))); [intros; constructor; auto|apply I; exact E]|].
      destruct (N.eqb (code c) 32) eqn:E4; [byte E4; subst; apply (passes_step p (to_right 1 p) (just " ")); [intros; constructor; auto|apply I; exact E]|].
      destruct (N.eqb (code c) 44) eqn:E5; [byte E5; subst; apply (passes_step p (to_right 1 p) (just ",")); [intros; constructor; auto|apply I; exact E]|].
      cbn [orb] in E. destruct (N.eqb (code c) 35) eqn:E6; [byte E6; subst; apply ended_passes, I; exact E|].
      assert (St : (String c s, p) = (s', p') -> passes p (String c s) s' p').
      { intros F. injection F as <- <-. left. exists "". split; auto. constructor. }
      destruct s as [|d [|e s]]; auto. destruct (N.eqb (code c) 239) eqn:F1; auto. destruct (N.eqb (code d) 187) eqn:F2; auto.
      destruct (N.eqb (code e) 191) eqn:F3; auto. byte F1. byte F2. byte F3. subst.
      apply (passes_step p p byte_order_mark); [intros; constructor; auto|]. apply IH; [cbn in L; lia|exact E].
    + destruct (N.eqb (code c) 13) eqn:E1.
      { byte E1; subst. left. eexists "", _, s. repeat split; [right; auto|apply I; exact E]. }
      destruct (N.eqb (code c) 10) eqn:E2.
      { byte E2; subst. left. eexists "", _, s. repeat split; [left; auto|apply I; exact E]. }
      cbn [orb] in E. byte E1. byte E2. assert (N : ~ line_end c) by (intros [H|H]; [apply E2; exact H|apply E1; exact H]).
      apply I in E. destruct E as [(b & c0 & z & -> & A & C & P)|[-> A]].
      * left. exists (String c b), c0, z. repeat split; auto.
      * right. split; auto. cbn. auto.
Qed.
Lemma skip_passes s p s' p' : skip_blank false s p = (s', p') -> passes p s s' p'.
Proof. apply (skip_sound (String.length s) s); auto. Qed.

(** ** Tokens *)
Lemma start_spec c : gname_start c = true <-> name_begin c.
Proof.
  unfold gname_start, name_begin, nat_of_ascii, code. rewrite !orb_true_iff, !andb_true_iff, N.eqb_eq, !N.leb_le. lia.
Qed.
Lemma digit_spec c : is_digit c = true <-> 48 <= nat_of_ascii c <= 57.
Proof. unfold is_digit, nat_of_ascii, code. rewrite andb_true_iff, !N.leb_le. lia. Qed.
Lemma char_spec c : gname_char c = true <-> name_part c.
Proof. unfold gname_char, name_part. rewrite orb_true_iff, start_spec, digit_spec. reflexivity. Qed.
Lemma ends_spec c : ends_number c = true <-> delimiter c.
Proof.
  unfold ends_number. rewrite existsb_exists. split.
  - intros (n & I & E). apply code_eq in E. subst. cbn in I. unfold delimiter, line_end.
    repeat (destruct I as [<-|I]; [cbn; tauto|]). destruct I.
  - intros [I|[->|[->| ->]]].
    2-4: eexists; (split; [|apply N.eqb_refl]); cbn; tauto.
    cbn in I. repeat (destruct I as [<-|I]; [eexists; (split; [|apply N.eqb_refl]); cbn; tauto|]). destruct I.
Qed.
Lemma span_sound f P : (forall c, f c = true <-> P c) -> forall s a b, span f s = (a, b) -> s = a +++ b /\ all P a /\ ~ first_is P b.
Proof.
  intros F. induction s as [|c s IH]; intros a b E; cbn [span] in E.
  - injection E as <- <-. repeat split. auto.
  - destruct (f c) eqn:Fc.
    + destruct (span f s) as [a' b'] eqn:S. injection E as <- <-. destruct (IH _ _ eq_refl) as (-> & A & B). repeat split; auto. apply F. auto.
    + injection E as <- <-. repeat split. cbn. rewrite <- F. congruence.
Qed.
Lemma span_complete f P : (forall c, f c = true <-> P c) -> forall a b, all P a -> ~ first_is P b -> span f (a +++ b) = (a, b).
Proof.
  intros F. induction a as [|c a IH]; intros b A B; cbn [String.append span].
  - destruct b as [|d b]; auto. cbn in *. rewrite <- F in B. destruct (f d); congruence.
  - destruct A as [C A]. apply F in C. rewrite C, IH; auto.
Qed.
Lemma string_sound : forall s, (forall a b, string_end false s = Some (a, b) -> s = a +++ String quote_mark b /\ string_body a) /\
  (forall a b, string_end true s = Some (a, b) -> exists c a', a = String c a' /\ c <> ascii_of_nat 10 /\ s = a +++ String quote_mark b /\ string_body a').
Proof.
  induction s as [|c s [IH1 IH2]]; split; intros a b E; try discriminate; cbn [string_end] in E.
  - destruct (N.eqb (code c) 34) eqn:Q; [byte Q; subst; injection E as <- <-; split; [reflexivity|constructor]|].
    destruct (N.eqb (code c) 10) eqn:L; [discriminate|]. cbn [negb andb] in E. destruct (N.eqb (code c) 92) eqn:B.
    + destruct (string_end true s) as [[x y]|]; [|discriminate]. injection E as <- <-. destruct (IH2 _ _ eq_refl) as (d & a' & -> & D & -> & S).
      byte B. subst. split; [reflexivity|]. apply (sb_escape d a'); auto.
    + destruct (string_end false s) as [[x y]|]; [|discriminate]. injection E as <- <-. destruct (IH1 _ _ eq_refl) as (-> & S).
      byte Q. byte B. byte L. split; [reflexivity|]. constructor; auto.
  - assert (G : exists x, string_end false s = Some (x, b) /\ a = String c x /\ c <> ascii_of_nat 10).
    { destruct (N.eqb (code c) 34) eqn:Q.
      - destruct (string_end false s) as [[x y]|]; [|discriminate]. injection E as <- <-. byte Q. subst. exists x. repeat split. discriminate.
      - destruct (N.eqb (code c) 10) eqn:L; [discriminate|]. cbn [negb andb] in E.
        destruct (string_end false s) as [[x y]|]; [|discriminate]. injection E as <- <-. byte L. exists x. auto. }
    destruct G as (x & G & -> & N). destruct (IH1 _ _ G) as (-> & S). exists c, x. auto.
Qed.
Lemma neq_code c n : c <> ascii_of_N n -> N.eqb (code c) n = false.
Proof. intros H. destruct (N.eqb (code c) n) eqn:E; auto. apply code_eq in E. congruence. Qed.
Lemma string_complete a b : string_body a -> string_end false (a +++ String quote_mark b) = Some (a, b).
Proof.
  intros S. induction S as [|c a Q B L S IH|c a L S IH].
  - reflexivity.
  - cbn [String.append string_end]. rewrite (neq_code c 34), (neq_code c 10), (neq_code c 92) by assumption. cbn [negb andb]. rewrite IH. reflexivity.
  - cbn [String.append string_end]. change (code backslash) with 92%N. cbn [N.eqb Pos.eqb negb andb].
    rewrite (neq_code c 10) by assumption. rewrite IH. destruct (N.eqb (code c) 34); reflexivity.
Qed.
Lemma begins_tail x y z s : begins x (y +++ quotes3) -> s = y +++ quotes3 +++ z -> begins x s.
Proof. intros (r & E) ->. exists (r +++ z). rewrite <- sapp_assoc, E, sapp_assoc. reflexivity. Qed.
Lemma begins_three s : begins quotes3 s <-> exists r, s = String quote_mark (String quote_mark (String quote_mark r)).
Proof. split; intros (r & ->); exists r; reflexivity. Qed.
(** The text after [String c] is at least as long as the quotes *)
Lemma begins_back x c y z : String.length x <= 4 -> begins x (String c (y +++ quotes3 +++ z)) -> begins x (String c (y +++ quotes3)).
Proof.
  intros L (r & E). rewrite <- sapp_assoc in E. change (String c ((y +++ quotes3) +++ z)) with (String c (y +++ quotes3) +++ z) in E.
  assert (L' : 4 <= String.length (String c (y +++ quotes3))).
  { cbn [String.length]. rewrite slen_app. change (String.length quotes3) with 3. lia. }
  revert E L'. generalize (String c (y +++ quotes3)). intros t E L'.
  assert (L5 : String.length x <= String.length t) by lia. clear L L'. revert t L5 E.
  induction x as [|d x IH]; intros t L5 E; [exists t; reflexivity|].
  destruct t as [|e t]; cbn in L5; [lia|]. injection E as <- E. destruct (IH t ltac:(lia) E) as (u & ->). exists u. reflexivity.
Qed.
Lemma block_sound : forall n s, String.length s <= n ->
  (forall a b, block_end false s = Some (a, b) -> s = a +++ quotes3 +++ b /\ block_body a) /\
  (forall a b, block_end true s = Some (a, b) -> s = a +++ quotes3 +++ b /\
     ((exists a', a = quotes3 +++ a' /\ block_body a') \/ (block_body a /\ ~ begins quotes3 (a +++ quotes3)))).
Proof.
  induction n as [|n IH]; intros s L; [destruct s; [split; intros; discriminate|cbn in L; lia]|].
  destruct s as [|c s]; [split; intros; discriminate|]. cbn in L.
  destruct (IH s ltac:(lia)) as [I1 I2].
  assert (Q : (exists r, String c s = quotes3 +++ r /\ forall e, block_end e (String c s) = if e then option_map (fun x => (quotes3 +++ fst x, snd x)) (block_end false r) else Some ("", r)) \/
    (~ begins quotes3 (String c s) /\ forall e, block_end e (String c s) = option_map (fun x => (String c (fst x), snd x)) (block_end (N.eqb (code c) 92) s))).
  { destruct s as [|d [|e r]].
    - right. split; [intros (r & E); discriminate|reflexivity].
    - right. split; [intros (r & E); discriminate|reflexivity].
    - destruct (N.eqb (code c) 34 && N.eqb (code d) 34 && N.eqb (code e) 34) eqn:T.
      + apply andb_true_iff in T. destruct T as [T T3]. apply andb_true_iff in T. destruct T as [T1 T2]. byte T1. byte T2. byte T3. subst.
        left. exists r. split; [reflexivity|]. intros []; reflexivity.
      + right. split.
        * intros (x & E). injection E as -> -> -> _. discriminate.
        * intros e0. cbn [block_end]. rewrite T. reflexivity. }
  assert (G : ~ begins quotes3 (String c s) -> forall a b, option_map (fun x => (String c (fst x), snd x)) (block_end (N.eqb (code c) 92) s) = Some (a, b) ->
    String c s = a +++ quotes3 +++ b /\ block_body a /\ ~ begins quotes3 (a +++ quotes3)).
  { intros N a b E. destruct (block_end (N.eqb (code c) 92) s) as [[x y]|] eqn:B; [|discriminate]. injection E as <- <-. cbn [fst snd].
    assert (Sx : s = x +++ quotes3 +++ y -> ~ begins quotes3 (String c x +++ quotes3)).
    { intros -> H. apply N. eapply begins_tail; [exact H|reflexivity]. }
    destruct (N.eqb (code c) 92) eqn:Bs.
    - byte Bs. destruct (I2 _ _ B) as (-> & [(a' & -> & Ba)|[Ba Nb]]).
      + split; [reflexivity|]. split; [subst; apply bb_escape; auto|]. apply Sx. reflexivity.
      + split; [reflexivity|]. split; [|apply Sx; reflexivity]. apply bb_char; [exact (Sx eq_refl)| |assumption].
        intros (r & E). injection E as _ E. apply Nb. exists r. exact E.
    - byte Bs. destruct (I1 _ _ B) as (-> & Ba). split; [reflexivity|]. split; [|apply Sx; reflexivity]. apply bb_char; [exact (Sx eq_refl)| |assumption].
      intros (r & E). injection E as E _. apply Bs. exact E. }
  destruct Q as [(r & E & R)|[N R]]; (split; intros a b; rewrite R; intros H).
  - injection H as <- <-. split; [exact E|constructor].
  - destruct (block_end false r) as [[x y]|] eqn:B; [|discriminate]. injection H as <- <-. cbn [fst snd].
    assert (Lr : String.length r <= n). { assert (String.length (String c s) = 3 + String.length r) by (rewrite E; reflexivity). cbn in H. lia. }
    destruct (IH r Lr) as [J _]. destruct (J _ _ B) as (-> & Bx). split; [rewrite E; reflexivity|]. left. exists x. split; [reflexivity|assumption].
  - destruct (G N _ _ H) as (A & B & _). auto.
  - destruct (G N _ _ H) as (A & B & C). auto.
Qed.
Lemma block_quotes r : forall e, block_end e (quotes3 +++ r) = if e then option_map (fun x => (quotes3 +++ fst x, snd x)) (block_end false r) else Some ("", r).
Proof. intros []; reflexivity. Qed.
Lemma block_other e c s : ~ begins quotes3 (String c s) -> block_end e (String c s) = option_map (fun x => (String c (fst x), snd x)) (block_end (N.eqb (code c) 92) s).
Proof.
  intros N. destruct s as [|d [|f r]]; try reflexivity. cbn [block_end].
  destruct (N.eqb (code c) 34 && N.eqb (code d) 34 && N.eqb (code f) 34) eqn:T; [|reflexivity].
  apply andb_true_iff in T. destruct T as [T T3]. apply andb_true_iff in T. destruct T as [T1 T2]. byte T1. byte T2. byte T3. subst.
  exfalso. apply N. exists r. reflexivity.
Qed.
Lemma block_complete a r : block_body a -> forall e, (e = true -> ~ begins quotes3 (a +++ quotes3)) -> block_end e (a +++ quotes3 +++ r) = Some (a, r).
Proof.
  intros B. induction B as [|b B IH|c b N1 N2 B IH]; intros e He.
  - cbn [String.append]. change (block_end e (quotes3 +++ r) = Some ("", r)). rewrite block_quotes. destruct e; auto. exfalso. apply He; auto. exists "". reflexivity.
  - change (String backslash (quotes3 +++ b) +++ quotes3 +++ r) with (String backslash (quotes3 +++ (b +++ quotes3 +++ r))).
    rewrite block_other; [|intros (x & E); discriminate]. change (N.eqb (code backslash) 92) with true. rewrite block_quotes, IH; [reflexivity|discriminate].
  - change (String c b +++ quotes3 +++ r) with (String c (b +++ quotes3 +++ r)). rewrite block_other.
    + rewrite IH; [reflexivity|]. intros E H. apply code_eq in E. apply N2. destruct H as (x & H). exists x. rewrite H, E. reflexivity.
    + intros H. apply N1. eapply begins_back; [|exact H]. cbn. lia.
Qed.

Lemma punct_of c q : single_punct c = Some q -> punct_text q = just c.
Proof.
  unfold single_punct. cbv zeta. intros E.
  repeat match type of E with context [if ?b then _ else _] => destruct b eqn:BB; [byte BB; subst c; injection E as <-; reflexivity|clear BB] end. discriminate E.
Qed.
Lemma token_sound ck s t r : take_token ck s = Some (t, r) -> exists x, s = x +++ r /\ written ck t x r.
Proof.
  destruct s as [|c s]; [discriminate|]. cbn [take_token]. intros E.
  destruct (single_punct c) as [q|] eqn:P; [injection E as <- <-; exists (just c); split; auto; rewrite <- (punct_of _ _ P); constructor|].
  destruct (N.eqb (code c) 46) eqn:D.
  { destruct s as [|d [|e s]]; try discriminate. destruct (N.eqb (code d) 46 && N.eqb (code e) 46) eqn:T; [|discriminate].
    apply andb_true_iff in T. destruct T as [T1 T2]. byte D. byte T1. byte T2. subst. injection E as <- <-. exists "...". split; auto. apply (wr_punct ck GDots). }
  destruct (gname_start c) eqn:G.
  { destruct (span gname_char s) as [a b] eqn:S. injection E as <- <-. destruct (span_sound _ _ char_spec _ _ _ S) as (-> & A & B).
    exists (String c a). split; auto. constructor; auto. apply start_spec. auto. }
  destruct (N.eqb (code c) 45 || is_digit c) eqn:M.
  { match type of E with context [span ?f s] => destruct (span f s) as [a b] eqn:S end. destruct (gk_number ck (String c a)) eqn:K; [|discriminate]. injection E as <- <-.
    assert (F : forall d, negb (ends_number d) = true <-> ~ delimiter d).
    { intros d. rewrite <- ends_spec. destruct (ends_number d); cbn; intuition congruence. }
    destruct (span_sound _ _ F _ _ _ S) as (-> & A & B). exists (String c a). split; auto. constructor; auto.
    - apply orb_true_iff in M. destruct M as [M|M]; [left; byte M; auto|right; apply digit_spec; auto].
    - destruct b as [|d b]; [left; auto|right]. cbn in *. destruct (ends_number d) eqn:En; [apply ends_spec; auto|]. exfalso. apply B. intros H. apply ends_spec in H. congruence. }
  destruct (N.eqb (code c) 34) eqn:Q; [|discriminate]. byte Q. subst c.
  assert (Pl : ~ begins (just quote_mark +++ just quote_mark) s -> match string_end false s with
                         | Some (a, b) => if gk_string ck a then Some (GString a, b) else None
                         | None => None
                         end = Some (t, r) -> exists x, String quote_mark s = x +++ r /\ written ck t x r).
  { intros Nb H. destruct (string_end false s) as [[a b]|] eqn:S; [|discriminate]. destruct (gk_string ck a) eqn:K; [|discriminate]. injection H as <- <-.
    destruct (proj1 (string_sound s) _ _ S) as (-> & B). exists (just quote_mark +++ a +++ just quote_mark).
    split; [cbn; rewrite sapp_assoc; reflexivity|]. constructor; auto. intros -> F. apply Nb. destruct b as [|d b]; [destruct F|]. cbn in F. subst. exists b. reflexivity. }
  destruct s as [|d [|e s]]; try (apply Pl; auto; intros (y & Y); discriminate).
  destruct (N.eqb (code d) 34 && N.eqb (code e) 34) eqn:T.
  - apply andb_true_iff in T. destruct T as [T1 T2]. byte T1. byte T2. subst.
    destruct (block_end false s) as [[a b]|] eqn:B; [|discriminate]. injection E as <- <-.
    destruct (proj1 (block_sound _ s (le_n _)) _ _ B) as (-> & Bb). exists (quotes3 +++ a +++ quotes3). split; [rewrite !sapp_assoc; reflexivity|]. constructor. auto.
  - apply Pl; auto. intros (y & Y). injection Y as -> -> ->. discriminate.
Qed.
Lemma byte_check (f : ascii -> bool) : forallb f (List.map ascii_of_nat (seq 0 256)) = true -> forall c, f c = true.
Proof.
  intros H c. rewrite forallb_forall in H. apply H. apply in_map_iff. exists (nat_of_ascii c). split; [apply ascii_nat_embedding|].
  apply in_seq. pose proof (nat_ascii_bounded c). lia.
Qed.
Definition no_punct (c : ascii) : bool := match single_punct c with None => negb (N.eqb (code c) 46) | _ => false end.
Lemma no_punct_spec c : no_punct c = true -> single_punct c = None /\ N.eqb (code c) 46 = false.
Proof. unfold no_punct. destruct (single_punct c); [discriminate|]. destruct (N.eqb (code c) 46); [discriminate|auto]. Qed.
Lemma start_other c : gname_start c = true -> no_punct c = true /\ skips c = false.
Proof.
  intros G. assert (K : implb (gname_start c) (no_punct c && negb (skips c)) = true).
  { apply (byte_check (fun c => implb (gname_start c) (no_punct c && negb (skips c)))). vm_compute. reflexivity. }
  rewrite G in K. cbn [implb] in K. apply andb_true_iff in K. destruct K as [K1 K2]. split; auto. destruct (skips c); [discriminate|auto].
Qed.
Lemma number_other c : N.eqb (code c) 45 || is_digit c = true -> no_punct c = true /\ gname_start c = false /\ skips c = false.
Proof.
  intros G. assert (K : implb (N.eqb (code c) 45 || is_digit c) (no_punct c && negb (gname_start c) && negb (skips c)) = true).
  { apply (byte_check (fun c => implb (N.eqb (code c) 45 || is_digit c) (no_punct c && negb (gname_start c) && negb (skips c)))). vm_compute. reflexivity. }
  rewrite G in K. cbn [implb] in K. apply andb_true_iff in K. destruct K as [K K3]. apply andb_true_iff in K. destruct K as [K1 K2].
  destruct (skips c), (gname_start c); try discriminate. auto.
Qed.
Lemma token_complete ck t x r : written ck t x r -> take_token ck (x +++ r) = Some (t, r).
Proof.
  intros W. destruct W as [q r|c n r C A F|c n r C A F K|b r B K F|b r B].
  - destruct q; reflexivity.
  - apply start_spec in C. destruct (start_other c C) as [P _]. apply no_punct_spec in P. destruct P as [P D].
    cbn [String.append take_token]. rewrite P, D, C, (span_complete _ _ char_spec) by auto. reflexivity.
  - assert (C' : N.eqb (code c) 45 || is_digit c = true).
    { destruct C as [->|C]; [reflexivity|]. apply digit_spec in C. rewrite C. apply orb_true_r. }
    destruct (number_other c C') as (P & G & _). apply no_punct_spec in P. destruct P as [P D].
    assert (Fd : forall d, negb (ends_number d) = true <-> ~ delimiter d).
    { intros d. rewrite <- ends_spec. destruct (ends_number d); cbn; intuition congruence. }
    cbn [String.append take_token]. rewrite P, D, G, C', (span_complete _ _ Fd).
    + rewrite K. reflexivity.
    + auto.
    + destruct F as [->|F]; [auto|]. destruct r; [auto|]. cbn in *. tauto.
  - rewrite !sapp_assoc. change (take_token ck (String quote_mark (b +++ String quote_mark r)) = Some (GString b, r)).
    assert (N : forall s, ~ begins (just quote_mark +++ just quote_mark) s -> take_token ck (String quote_mark s) =
      match string_end false s with Some (a, b) => if gk_string ck a then Some (GString a, b) else None | None => None end).
    { intros s H. destruct s as [|d [|e s]]; try reflexivity. cbn [take_token]. change (single_punct quote_mark) with (@None gpunct).
      change (N.eqb (code quote_mark) 46) with false. change (gname_start quote_mark) with false. change (N.eqb (code quote_mark) 45 || is_digit quote_mark) with false.
      change (N.eqb (code quote_mark) 34) with true. cbv iota beta.
      destruct (N.eqb (code d) 34) eqn:T1; [|reflexivity]. destruct (N.eqb (code e) 34) eqn:T2; [|reflexivity]. byte T1. byte T2. subst. exfalso. apply H. exists s. reflexivity. }
    rewrite N.
    + rewrite string_complete by auto. rewrite K. reflexivity.
    + intros (y & Y). inversion B as [E|c b' Q _ _ _ E|c b' _ _ E]; subst.
      * injection Y as Y. apply F; auto. rewrite Y. reflexivity.
      * injection Y as Y _. apply Q. auto.
      * discriminate.
  - rewrite !sapp_assoc. change (match block_end false (b +++ quotes3 +++ r) with Some (a, b) => Some (GBlock a, b) | None => None end = Some (GBlock b, r)).
    rewrite block_complete by (auto; discriminate). reflexivity.
Qed.
Lemma written_first ck t x r : written ck t x r -> exists c y, x = String c y /\ skips c = false.
Proof.
  intros W. destruct W as [q r|c n r C A F|c n r C A F K|b r B K F|b r B].
  - destruct q; eexists; eexists; (split; [reflexivity|reflexivity]).
  - exists c, n. split; auto. apply start_spec in C. apply start_other in C. tauto.
  - exists c, n. split; auto. assert (C' : N.eqb (code c) 45 || is_digit c = true).
    { destruct C as [->|C]; [reflexivity|]. apply digit_spec in C. rewrite C. apply orb_true_r. }
    apply number_other in C'. tauto.
  - eexists; eexists; (split; [reflexivity|reflexivity]).
  - eexists; eexists; (split; [reflexivity|reflexivity]).
Qed.

(** ** Positions *)
Lemma letters_chars s : letters s = chars s.
Proof.
  induction s as [|c s IH]; cbn [letters chars]; auto. rewrite IH.
  replace ((128 <=? nat_of_ascii c) && (nat_of_ascii c <=? 191)) with (tail_byte c); [destruct (tail_byte c); reflexivity|].
  revert c. clear. intros c. apply eqb_prop. apply (byte_check (fun c => Bool.eqb (tail_byte c) ((128 <=? nat_of_ascii c) && (nat_of_ascii c <=? 191)))). vm_compute. reflexivity.
Qed.
Lemma chars_app a b : chars (a +++ b) = chars a + chars b.
Proof. induction a as [|c a IH]; cbn [String.append chars]; [reflexivity|]. rewrite IH. lia. Qed.
Lemma at_col_add n m p : at_col n (at_col m p) = at_col (m + n) p.
Proof. unfold at_col. cbn. f_equal. lia. Qed.
Lemma at_col_0 p : at_col 0 p = p.
Proof. destruct p. unfold at_col. cbn. f_equal. lia. Qed.
Lemma move_line x : lacks_line x -> forall p, move_over x p = at_col (chars x) p.
Proof.
  induction x as [|c x IH]; intros A p; cbn [move_over chars]; [symmetry; apply at_col_0|]. destruct A as [C A]. rewrite IH by auto.
  rewrite (neq_code c 10) by exact C. destruct (tail_byte c); [reflexivity|]. rewrite at_col_add. reflexivity.
Qed.
Lemma move_app a b : forall p, move_over (a +++ b) p = move_over b (move_over a p).
Proof. induction a as [|c a IH]; intros p; cbn [String.append move_over]; auto. Qed.
Lemma spans_move p x q : spans p x q <-> q = move_over x p.
Proof.
  split.
  - intros S. induction S as [p x A|p a b q A S IH].
    + rewrite move_line, <- letters_chars by auto. reflexivity.
    + rewrite move_app. cbn [move_over]. change (N.eqb (code (ascii_of_nat 10)) 10) with true. cbv iota. rewrite (move_line a A). exact IH.
  - intros ->. assert (G : forall a, lacks_line a -> spans p (a +++ x) (move_over x (move_over a p))).
    { revert p. induction x as [|c x IH]; intros p a A.
      - rewrite sapp_nil_r. cbn [move_over]. rewrite move_line, <- letters_chars by auto. constructor. auto.
      - destruct (N.eqb (code c) 10) eqn:E.
        + byte E. subst. cbn [move_over]. change (N.eqb (code "010") 10) with true. cbv iota.
          apply spans_lines; auto. rewrite (move_line a A). exact (IH (to_below p) "" Logic.I).
        + replace (a +++ String c x) with ((a +++ just c) +++ x) by (rewrite sapp_assoc; reflexivity).
          replace (move_over (String c x) (move_over a p)) with (move_over x (move_over (a +++ just c) p)).
          * apply IH. byte E. clear - A E. induction a as [|d a IH]; cbn; [auto|]. destruct A. split; auto. apply IH; auto.
          * rewrite move_app. reflexivity. }
    exact (G "" Logic.I).
Qed.
Lemma all_lacks (P : ascii -> Prop) s : (forall c, P c -> c <> ascii_of_nat 10) -> all P s -> lacks_line s.
Proof. intros H. induction s as [|c s IH]; cbn; [auto|]. intros [A B]. split; auto. apply IH. auto. Qed.
Lemma body_lacks b : string_body b -> lacks_line b.
Proof. intros B. induction B; cbn; repeat split; auto. discriminate. Qed.
Lemma token_move ck t x r p : written ck t x r -> move_over x p = after_token t p.
Proof.
  intros W. destruct W as [q r|c n r C A F|c n r C A F K|b r B K F|b r B]; cbn [after_token].
  - apply move_line. destruct q; cbn; repeat split; discriminate.
  - apply move_line. split.
    + intros ->. apply start_spec in C. discriminate.
    + eapply all_lacks; [|exact A]. intros d D ->. apply char_spec in D. discriminate.
  - apply move_line. split.
    + intros ->. destruct C as [C|C]; [discriminate|]. apply digit_spec in C. discriminate.
    + eapply all_lacks; [|exact A]. cbn. intros d D ->. apply D. apply ends_spec. reflexivity.
  - rewrite move_line.
    + rewrite !chars_app. change (chars (just quote_mark)) with 1. f_equal. lia.
    + apply body_lacks in B. clear - B. cbn. split; [discriminate|]. induction b as [|d b IH]; cbn; [split; [discriminate|auto]|]. destruct B. split; auto.
  - rewrite !move_app. rewrite !(move_line quotes3); [reflexivity|cbn; repeat split; discriminate..].
Qed.

(** ** Nesting *)
Lemma nest_spec left q t ts : at_most_open left ((q, t) :: ts) <-> exists left', nest left t = Some left' /\ at_most_open left' ts.
Proof.
  set (o := if opens (q, t) then 1 else 0). set (c := if closes (q, t) then 1 else 0).
  assert (A : at_most_open left ((q, t) :: ts) <-> o <= left + c /\ forall a b, ts = a ++ b -> o + List.length (List.filter opens a) <= left + c + List.length (List.filter closes a)).
  { unfold at_most_open. split.
    - intros H. split.
      + specialize (H [(q, t)] ts eq_refl). unfold o, c. cbn [List.filter] in H. destruct (opens (q, t)), (closes (q, t)); cbn in H; lia.
      + intros a b ->. specialize (H ((q, t) :: a) b eq_refl). unfold o, c. cbn [List.filter] in H. destruct (opens (q, t)), (closes (q, t)); cbn in H; lia.
    - intros [H0 H] a b E. destruct a as [|u a]; [cbn; lia|]. injection E as <- E. specialize (H a b E). unfold o, c in H. cbn [List.filter].
      destruct (opens (q, t)), (closes (q, t)); cbn; lia. }
  rewrite A. clear A. unfold at_most_open, o, c. clear o c.
  assert (G : forall o c : bool, (nest left t = if o then match left with 0 => None | S n => Some n end else if c then Some (S left) else Some left) -> (o = true -> c = false) ->
    opens (q, t) = o -> closes (q, t) = c ->
    ((if opens (q, t) then 1 else 0) <= left + (if closes (q, t) then 1 else 0) /\
     (forall a b, ts = a ++ b -> (if opens (q, t) then 1 else 0) + List.length (List.filter opens a) <= left + (if closes (q, t) then 1 else 0) + List.length (List.filter closes a))) <->
    exists left', nest left t = Some left' /\ forall a b, ts = a ++ b -> List.length (List.filter opens a) <= left' + List.length (List.filter closes a)).
  { intros o c N Oc -> ->. rewrite N. destruct o.
    - rewrite (Oc eq_refl). destruct left as [|n].
      + split; [intros [H _]; lia|intros (l & H & _); discriminate].
      + split.
        * intros [_ H]. exists n. split; [reflexivity|]. intros a b E. specialize (H a b E). lia.
        * intros (l & E & H). injection E as <-. split; [lia|]. intros a b E. specialize (H a b E). lia.
    - destruct c.
      + split.
        * intros [_ H]. exists (S left). split; auto. intros a b E. specialize (H a b E). lia.
        * intros (l & E & H). injection E as <-. split; [lia|]. intros a b E. specialize (H a b E). lia.
      + split.
        * intros [_ H]. exists left. split; auto. intros a b E. specialize (H a b E). lia.
        * intros (l & E & H). injection E as <-. split; [lia|]. intros a b E. specialize (H a b E). lia. }
  apply (G (opens (q, t)) (closes (q, t))); destruct t as [[]| | | |]; reflexivity || discriminate.
Qed.

(** ** All tokens *)
Lemma skip_shorter s p : String.length (fst (skip_blank false s p)) <= String.length s.
Proof.
  destruct (skip_blank false s p) as [s' q] eqn:E. apply skip_passes in E. cbn. destruct E as [(w & -> & _)|[-> _]]; [rewrite slen_app|cbn]; lia.
Qed.
Lemma lex_complete ck : forall p text ts, tokens_of ck p text ts -> forall left fuel, at_most_open left ts -> String.length (fst (skip_blank false text p)) <= fuel ->
  (let (s, q) := skip_blank false text p in glex fuel ck left s q) = Some ts.
Proof.
  intros p text ts T. induction T as [p w G|p w q t x q' r ts G W S T IH]; intros left fuel A L.
  - destruct (skip_last_gap _ _ G) as (q & ->). destruct fuel; reflexivity.
  - rewrite (skip_gap _ _ _ G) in *. destruct (written_first _ _ _ _ W) as (c & y & E & F).
    assert (Sk : skip_blank false (x +++ r) q = (x +++ r, q)) by (rewrite E; apply skip_fresh; auto).
    rewrite Sk in *. cbn [fst] in L. rewrite slen_app in L. pose proof (token_complete _ _ _ _ W) as Tk. pose proof (token_move _ _ _ _ q W) as Mv.
    apply spans_move in S. rewrite Mv in S. subst x q'. cbn in L. destruct fuel as [|k]; [lia|].
    apply nest_spec in A. destruct A as (left' & N & A). cbn [String.append glex] in *. rewrite Tk, N.
    pose proof (skip_shorter r (after_token t q)) as Sh. specialize (IH left' k A ltac:(lia)). destruct (skip_blank false r (after_token t q)) as [s' p'].
    rewrite IH. reflexivity.
Qed.
Lemma lex_sound ck : forall fuel left text p ts, (let (s, q) := skip_blank false text p in glex fuel ck left s q) = Some ts ->
  tokens_of ck p text ts /\ at_most_open left ts.
Proof.
  assert (N : forall left, at_most_open left []).
  { intros left a b E. destruct a; [|discriminate]. cbn. lia. }
  induction fuel as [|k IH]; intros left text p ts E; destruct (skip_blank false text p) as [s q] eqn:Sk; apply skip_passes in Sk.
  - destruct s; [|discriminate]. injection E as <-. split; auto. constructor.
    destruct Sk as [(w & -> & G)|[_ Sk]]; auto. rewrite sapp_nil_r. left. eauto.
  - destruct s as [|c s].
    + injection E as <-. split; auto. constructor. destruct Sk as [(w & -> & G)|[_ Sk]]; auto. rewrite sapp_nil_r. left. eauto.
    + destruct Sk as [(w & -> & G)|[H _]]; [|discriminate]. cbn [glex] in E.
      destruct (take_token ck (String c s)) as [[t r]|] eqn:Tk; [|discriminate]. destruct (nest left t) as [left'|] eqn:Ne; [|discriminate].
      destruct (token_sound _ _ _ _ Tk) as (x & Ex & W). rewrite Ex.
      assert (R : exists ts', (let (s', p') := skip_blank false r (after_token t q) in glex k ck left' s' p') = Some ts' /\ ts = (q, t) :: ts').
      { destruct (skip_blank false r (after_token t q)) as [s' p']. destruct (glex k ck left' s' p'); [|discriminate]. injection E as <-. eauto. }
      destruct R as (ts' & R & ->). destruct (IH _ _ _ _ R) as [T A]. split.
      * eapply to_token; eauto. apply spans_move. symmetry. eapply token_move. eauto.
      * apply nest_spec. eauto.
Qed.
Theorem tokens_iff ck text ts : gql_tokens ck text = Some ts <-> tokens_of ck start_pos text ts /\ at_most_open 50 ts.
Proof.
  unfold gql_tokens. split.
  - intros E. destruct (skip_blank false text start_pos) as [s q] eqn:Sk.
    apply (lex_sound ck (String.length s)). rewrite Sk. unfold start_pos in Sk. rewrite Sk in E. exact E.
  - intros [T A]. pose proof (lex_complete ck _ _ _ T 50 _ A (le_n _)) as E.
    unfold start_pos in E. destruct (skip_blank false text {| pos_line := 1; pos_col := 1 |}) as [s q]. exact E.
Qed.
