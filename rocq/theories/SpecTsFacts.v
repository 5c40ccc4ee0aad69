(** The reader of SpecTs.v is deterministic and reads back every well-parenthesised expression. *)
From Verif Require Export SpecTs BaseFacts.

Fixpoint print_texpr (e : texpr) : string :=
  match e with
  | XName n => n
  | XLit s => dq +++ s +++ dq
  | XNull => "null"
  | XArr e => print_texpr e +++ "[]"
  | XUnion a b => print_texpr a +++ " | " +++ print_texpr b
  | XParen e => "(" +++ print_texpr e +++ ")"
  end.

Definition is_union (e : texpr) : bool := match e with XUnion _ _ => true | _ => false end.

(** Quote-free text of a literal *)
Fixpoint no_quote (s : string) : bool :=
  match s with
  | EmptyString => true
  | String c s' => negb (Ascii.eqb c (ascii_of_nat 34)) && no_quote s'
  end.

Fixpoint wf_texpr (e : texpr) : Prop :=
  match e with
  | XName n => is_name n
  | XLit s => no_quote s = true
  | XNull => True
  | XArr e => wf_texpr e /\ is_union e = false
  | XUnion a b => wf_texpr a /\ wf_texpr b /\ is_union b = false
  | XParen e => wf_texpr e
  end.

(** *** One-step unfoldings *)
Lemma read_union_S f s : read_union (S f) s =
  match read_post f s with Some (e, r) => read_alts f e r | None => None end.
Proof. reflexivity. Qed.
Lemma read_alts_S f e r : read_alts (S f) e r =
  match strip_prefix " | " r with
  | None => Some (e, r)
  | Some r' => match read_post f r' with
               | Some (e', r'') => read_alts f (XUnion e e') r''
               | None => None
               end
  end.
Proof. reflexivity. Qed.
Lemma read_post_S f s : read_post (S f) s =
  match read_prim f s with Some (e, r) => read_arrs f e r | None => None end.
Proof. reflexivity. Qed.
Lemma read_arrs_S f e r : read_arrs (S f) e r =
  match strip_prefix "[]" r with
  | None => Some (e, r)
  | Some r' => read_arrs f (XArr e) r'
  end.
Proof. reflexivity. Qed.
Lemma read_prim_S f s : read_prim (S f) s =
  match strip_prefix "(" s with
  | Some s' => match read_union f s' with
               | Some (e, r) => match strip_prefix ")" r with
                                | Some r' => Some (XParen e, r')
                                | None => None
                                end
               | None => None
               end
  | None =>
      match strip_prefix dq s with
      | Some s' => match span_quote s' with Some (l, r) => Some (XLit l, r) | None => None end
      | None => let (n, r) := span_name s in
                if is_empty n then None
                else if String.eqb n "null" then Some (XNull, r) else Some (XName n, r)
      end
  end.
Proof. reflexivity. Qed.

(** *** Fuel monotonicity, hence determinism *)
Lemma read_mono :
  forall f,
    (forall s x, read_union f s = Some x -> read_union (S f) s = Some x) /\
    (forall e s x, read_alts f e s = Some x -> read_alts (S f) e s = Some x) /\
    (forall s x, read_post f s = Some x -> read_post (S f) s = Some x) /\
    (forall e s x, read_arrs f e s = Some x -> read_arrs (S f) e s = Some x) /\
    (forall s x, read_prim f s = Some x -> read_prim (S f) s = Some x).
Proof.
  induction f as [|f (IHu & IHa & IHp & IHr & IHq)].
  - repeat split; intros; discriminate.
  - repeat split.
    + intros s x. rewrite ?read_union_S. destruct (read_post f s) as [[e r]|] eqn:E; [|discriminate].
      apply IHp in E. rewrite E. apply IHa.
    + intros e s x. rewrite ?read_alts_S. destruct (strip_prefix " | " s); auto.
      destruct (read_post f s0) as [[e' r]|] eqn:E; [|discriminate].
      apply IHp in E. rewrite E. apply IHa.
    + intros s x. rewrite ?read_post_S. destruct (read_prim f s) as [[e r]|] eqn:E; [|discriminate].
      apply IHq in E. rewrite E. apply IHr.
    + intros e s x. rewrite ?read_arrs_S. destruct (strip_prefix "[]" s); auto.
    + intros s x. rewrite ?read_prim_S. destruct (strip_prefix "(" s); auto.
      destruct (read_union f s0) as [[e r]|] eqn:E; [|discriminate].
      apply IHu in E. rewrite E. auto.
Qed.
Lemma read_union_le f g s x : f <= g -> read_union f s = Some x -> read_union g s = Some x.
Proof. induction 1; auto. intros H1. apply (proj1 (read_mono m)). auto. Qed.
Lemma read_alts_le f g e s x : f <= g -> read_alts f e s = Some x -> read_alts g e s = Some x.
Proof. induction 1; auto. intros H1. apply (proj1 (proj2 (read_mono m))). auto. Qed.
Lemma read_post_le f g s x : f <= g -> read_post f s = Some x -> read_post g s = Some x.
Proof. induction 1; auto. intros H1. apply (proj1 (proj2 (proj2 (read_mono m)))). auto. Qed.
Lemma read_arrs_le f g e s x : f <= g -> read_arrs f e s = Some x -> read_arrs g e s = Some x.
Proof. induction 1; auto. intros H1. apply (proj1 (proj2 (proj2 (proj2 (read_mono m))))). auto. Qed.
Lemma read_prim_le f g s x : f <= g -> read_prim f s = Some x -> read_prim g s = Some x.
Proof. induction 1; auto. intros H1. apply (proj2 (proj2 (proj2 (proj2 (read_mono m))))). auto. Qed.

Lemma reads_functional s e e' : reads s e -> reads s e' -> e = e'.
Proof.
  intros [f H] [g H'].
  apply (read_union_le f (f + g)) in H; [|lia]. apply (read_union_le g (f + g)) in H'; [|lia].
  congruence.
Qed.

(** *** Reading back what is printed *)
Definition stops (r : string) : Prop :=
  match r with EmptyString => True | String c _ => name_char c = false end.

Lemma span_name_app n r : snd (span_name n) = "" -> stops r -> span_name (n +++ r) = (n, r).
Proof.
  intros H St. induction n as [|c n IH]; cbn in *.
  - destruct r as [|c r]; auto. cbn in *. rewrite St. auto.
  - destruct (name_char c); [|discriminate].
    destruct (span_name n) as [a b]; cbn in *. rewrite IH; auto.
Qed.
Lemma span_quote_app s r : no_quote s = true -> span_quote (s +++ dq +++ r) = Some (s, r).
Proof.
  induction s as [|c s IH]; intros H.
  - reflexivity.
  - cbn [no_quote] in H. apply andb_true_iff in H. destruct H as [H1 H2].
    cbn [String.append span_quote]. destruct (Ascii.eqb c (ascii_of_nat 34)); [discriminate|].
    rewrite IH; auto.
Qed.

Lemma name_first n r : is_name n ->
  strip_prefix "(" (n +++ r) = None /\ strip_prefix dq (n +++ r) = None.
Proof.
  intros (H & N & _). destruct n as [|c n]; [congruence|]. cbn in H.
  destruct (name_char c) eqn:E; [|discriminate].
  unfold dq. cbn [String.append strip_prefix].
  split; destruct (Ascii.eqb _ c) eqn:E2; auto; apply Ascii.eqb_eq in E2; subst; discriminate.
Qed.

Lemma read_back_name n r : is_name n -> stops r -> read_prim 1 (n +++ r) = Some (XName n, r).
Proof.
  intros Hn St. destruct (name_first n r Hn) as [H1 H2].
  rewrite ?read_prim_S. rewrite H1, H2. destruct Hn as (H & N & N2).
  rewrite span_name_app by auto.
  destruct n as [|c n]; [congruence|]. cbn [is_empty].
  destruct (String.eqb (String c n) "null") eqn:E; auto. apply String.eqb_eq in E. congruence.
Qed.

Lemma stops_union r : stops (" | " +++ r). Proof. reflexivity. Qed.
Lemma stops_arr r : stops ("[]" +++ r). Proof. reflexivity. Qed.
Lemma stops_close r : stops (")" +++ r). Proof. reflexivity. Qed.

Lemma read_back :
  forall e, wf_texpr e ->
    (is_union e = false -> forall r m x, stops r -> read_arrs m e r = Some x ->
       exists n, read_post n (print_texpr e +++ r) = Some x) /\
    (forall r m x, stops r -> strip_prefix "[]" r = None -> read_alts m e r = Some x ->
       exists n, read_union n (print_texpr e +++ r) = Some x).
Proof.
  (* it is enough to prove the first part for non-unions, and the second for unions *)
  assert (lift : forall e, is_union e = false ->
    (forall r m x, stops r -> read_arrs m e r = Some x -> exists n, read_post n (print_texpr e +++ r) = Some x) ->
    (forall r m x, stops r -> strip_prefix "[]" r = None -> read_alts m e r = Some x ->
       exists n, read_union n (print_texpr e +++ r) = Some x)).
  { intros e _ P r m x St Nb H.
    destruct (P r 1 (e, r) St) as [n Hn]. { cbn. cbn in Nb. rewrite Nb. auto. }
    exists (S (n + m)). rewrite ?read_union_S.
    rewrite (read_post_le n (n + m) _ _ ltac:(lia) Hn).
    apply (read_alts_le m); auto. lia. }
  assert (prim : forall e r x, (exists n, read_prim n (print_texpr e +++ r) = Some (e, r)) ->
    forall m, read_arrs m e r = Some x -> exists n, read_post n (print_texpr e +++ r) = Some x).
  { intros e r x [n Hn] m H. exists (S (n + m)). rewrite ?read_post_S.
    rewrite (read_prim_le n (n + m) _ _ ltac:(lia) Hn). apply (read_arrs_le m); auto. lia. }
  induction e as [n|s| |e IH|a IHa b IHb|e IH]; intros W.
  - assert (P : forall r m x, stops r -> read_arrs m (XName n) r = Some x ->
       exists k, read_post k (print_texpr (XName n) +++ r) = Some x).
    { intros r m x St H. eapply prim; eauto. exists 1. apply read_back_name; auto. }
    split; [auto | apply lift; auto].
  - assert (P : forall r m x, stops r -> read_arrs m (XLit s) r = Some x ->
       exists k, read_post k (print_texpr (XLit s) +++ r) = Some x).
    { intros r m x St H. eapply prim; eauto. exists 1. cbn [print_texpr].
      rewrite !sapp_assoc, read_prim_S, strip_prefix_app.
      change (strip_prefix "(" (dq +++ s +++ dq +++ r)) with (@None string).
      rewrite span_quote_app; auto. }
    split; [auto | apply lift; auto].
  - assert (P : forall r m x, stops r -> read_arrs m XNull r = Some x ->
       exists k, read_post k (print_texpr XNull +++ r) = Some x).
    { intros r m x St H. eapply prim; eauto. exists 1. cbn [print_texpr].
      rewrite ?read_prim_S. change (strip_prefix "(" ("null" +++ r)) with (@None string).
      change (strip_prefix dq ("null" +++ r)) with (@None string).
      rewrite span_name_app by auto. auto. }
    split; [auto | apply lift; auto].
  - cbn [wf_texpr] in W. destruct W as [W U]. destruct (IH W) as [IH1 _]. specialize (IH1 U).
    assert (P : forall r m x, stops r -> read_arrs m (XArr e) r = Some x ->
       exists k, read_post k (print_texpr (XArr e) +++ r) = Some x).
    { intros r m x St H. cbn [print_texpr]. rewrite sapp_assoc.
      apply (IH1 _ (S m)). { apply stops_arr. }
      rewrite ?read_arrs_S. rewrite strip_prefix_app. auto. }
    split; [auto | apply lift; auto].
  - cbn [wf_texpr] in W. destruct W as (Wa & Wb & U). destruct (IHa Wa) as [_ IH2].
    destruct (IHb Wb) as [IH1 _]. specialize (IH1 U). split; [discriminate|].
    intros r m x St Nb H. cbn [print_texpr]. rewrite !sapp_assoc.
    destruct (IH1 r 1 (b, r) St) as [n Hn]. { rewrite ?read_arrs_S. rewrite Nb. auto. }
    apply (IH2 _ (S (n + m))); auto. { apply stops_union. }
    rewrite ?read_alts_S. rewrite strip_prefix_app.
    rewrite (read_post_le n (n + m) _ _ ltac:(lia) Hn). apply (read_alts_le m); auto. lia.
  - cbn [wf_texpr] in W. destruct (IH W) as [_ IH2].
    assert (P : forall r m x, stops r -> read_arrs m (XParen e) r = Some x ->
       exists k, read_post k (print_texpr (XParen e) +++ r) = Some x).
    { intros r m x St H. eapply prim; eauto.
      destruct (IH2 (")" +++ r) 1 (e, ")" +++ r)) as [n Hn]; auto. { apply stops_close. }
      exists (S n). cbn [print_texpr]. rewrite !sapp_assoc. rewrite ?read_prim_S.
      rewrite strip_prefix_app. rewrite Hn, strip_prefix_app. auto. }
    split; [auto | apply lift; auto].
Qed.

Lemma reads_print e : wf_texpr e -> reads (print_texpr e) e.
Proof.
  intros W. destruct (read_back e W) as [_ H].
  destruct (H "" 1 (e, "")) as [n Hn]; cbn; auto.
  rewrite sapp_nil_r in Hn. exists n. auto.
Qed.

Lemma is_nameb_ok n : is_nameb n = true <-> is_name n.
Proof.
  unfold is_nameb, is_name. rewrite !andb_true_iff, !negb_true_iff.
  destruct (String.eqb n "null") eqn:E.
  - apply String.eqb_eq in E. subst. intuition discriminate.
  - apply String.eqb_neq in E. destruct n; cbn.
    + intuition congruence.
    + destruct (snd _); cbn; intuition discriminate.
Qed.
