(** Facts about the wording of messages. *)
From Verif Require Export SpecMsg BaseFacts ProcFacts ImportProps GraphqlFacts.

Lemma app_assoc_s a b c : (a +++ b) +++ c = a +++ b +++ c.
Proof. induction a; cbn; [auto|]. rewrite IHa. auto. Qed.

Lemma clean_app a b : clean a -> clean b -> clean (a +++ b).
Proof. unfold clean. induction a as [|x a IH]; cbn; auto. intros A B [H|H]; [apply A; auto|]. revert H. apply IH; auto. Qed.

(** Splitting at backquotes *)
Lemma cut_ticks_nonempty s : cut_ticks s <> [].
Proof. destruct s as [|a s]; cbn [cut_ticks]; [easy|]. destruct (Ascii.eqb a "`"); [easy|]. destruct (cut_ticks s); easy. Qed.
Lemma cut_ticks_clean a : clean a -> cut_ticks a = [a].
Proof.
  induction a as [|x a IH]; cbn [cut_ticks]; auto. intros C. destruct (Ascii.eqb_spec x "`") as [->|N]; [exfalso; apply C; cbn; auto|].
  rewrite IH; auto. intros H. apply C. cbn. auto.
Qed.
Lemma cut_ticks_cut a r : clean a -> cut_ticks (a +++ tick +++ r) = a :: cut_ticks r.
Proof.
  induction a as [|x a IH]; intros C; [reflexivity|]. cbn [String.append cut_ticks].
  destruct (Ascii.eqb_spec x "`") as [->|N]; [exfalso; apply C; cbn; auto|].
  rewrite IH; auto. intros H. apply C. cbn. auto.
Qed.
Definition flat (x : sentence) : list string := fst x :: flat_map (fun y => [fst y; snd y]) (snd x).
Lemma cut_ticks_said x : Forall clean (flat x) -> cut_ticks (said x) = flat x.
Proof.
  destruct x as [w l]. unfold said, flat. cbn [fst snd]. revert w. induction l as [|[n m] l IH]; intros w F.
  - cbn. apply cut_ticks_clean. inversion F; auto.
  - cbn [weave flat_map fst snd app] in *. inversion F as [|? ? Cw F1]; subst. inversion F1 as [|? ? Cn F2]; subst.
    rewrite cut_ticks_cut, cut_ticks_cut; auto. rewrite IH; auto.
Qed.
Lemma quoted_flat x : quoted (flat x) = List.map fst (snd x).
Proof. destruct x as [w l]. unfold flat. cbn [fst snd]. revert w. induction l as [|[n m] l IH]; intros w; cbn; auto. f_equal. apply (IH m). Qed.

Lemma flat_inj x y : flat x = flat y -> x = y.
Proof.
  destruct x as [w l], y as [w' l']. unfold flat. cbn [fst snd]. intros H. inversion H as [[H1 H2]]. subst. f_equal.
  clear H. revert l' H2. induction l as [|[a b] l IH]; intros [|[a' b'] l'] H; cbn in H; try discriminate; auto.
  inversion H; subst. f_equal. auto.
Qed.

(** Literals have no backquotes *)
Fixpoint tickless (s : string) : bool :=
  match s with EmptyString => true | String a r => negb (Ascii.eqb a "`") && tickless r end.
Lemma tickless_clean s : tickless s = true -> clean s.
Proof.
  unfold clean. induction s as [|a s IH]; cbn [tickless has_char]; auto. rewrite andb_true_iff, negb_true_iff. intros [A B] [->|H]; [discriminate|].
  revert H. apply IH. auto.
Qed.
Lemma headline_clean p : ours p -> Forall clean (details p) -> Forall clean (flat (headline p)).
Proof.
  intros O F. unfold details, names in F. apply Forall_app in F as [F G].
  destruct p; cbn [headline flat fst snd List.map flat_map app] in *;
    repeat match goal with H : Forall clean (_ :: _) |- _ => inversion H; clear H; subst end;
    repeat (apply Forall_cons || apply Forall_nil); auto;
    try (apply tickless_clean; reflexivity); try (apply clean_app; auto; apply tickless_clean; reflexivity).
  exfalso. eapply O. reflexivity.
Qed.

Lemma headline_inj p q : ours p -> ours q -> headline p = headline q -> p = q.
Proof.
  intros Op Oq H. destruct p; try (exfalso; eapply Op; reflexivity);
    destruct q; try (exfalso; eapply Oq; reflexivity); cbn [headline String.append] in H;
    first [reflexivity | discriminate | congruence | idtac].
Qed.
