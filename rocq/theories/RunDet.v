(** What a compilation reports is determined by the document, up to the order in which names are listed. *)
From Verif Require Export DefFacts.

Definition same_names (l l' : list string) : Prop := forall x, In x l <-> In x l'.
(** Equal up to the order of the alternatives they list *)
Inductive wsame : warning -> warning -> Prop :=
| ws_refl w : wsame w w
| ws_narrow p l l' c : same_names l l' -> wsame (WOverFragmentNarrowing p l c) (WOverFragmentNarrowing p l' c).
Inductive esame : ir_error -> ir_error -> Prop :=
| es_refl e : esame e e
| es_field P n p l l' : same_names l l' -> esame (EUnknownField P n p l) (EUnknownField P n p l')
| es_fragment n p l l' : same_names l l' -> esame (EUnknownFragment n p l) (EUnknownFragment n p l').

Lemma lists_same l l' (K K' : string -> Prop) : lists l K -> lists l' K' -> (forall T, K T <-> K' T) -> same_names l l'.
Proof. intros A B I x. rewrite (A x), (B x). apply I. Qed.
Lemma Forall2_refl {A} (R : A -> A -> Prop) l : (forall x, R x x) -> Forall2 R l l.
Proof. intros H. induction l; constructor; auto. Qed.
Lemma Forall2_app2 {A B} (R : A -> B -> Prop) a a' b b' : Forall2 R a a' -> Forall2 R b b' -> Forall2 R (a ++ b) (a' ++ b').
Proof. intros H I. induction H; cbn; auto. Qed.

Section Det.
  Variable s : schema.
  Variables frags frags' : amap string fragdef.
  Hypothesis ext : forall n, aget n frags = aget n frags'.
  Variable dep : bool.

  Lemma field_of_fun P n f f' : field_of s P n f -> field_of s P n f' -> f = f'.
  Proof.
    intros (t & G & H) (t' & G' & H'). rewrite G in G'. injection G' as <-.
    destruct (st_def t); try contradiction; rewrite H in H'; congruence.
  Qed.
  Lemma bad_cond_fun c p e e' : bad_cond s c p e -> bad_cond s c p e' -> e = e'.
  Proof. intros A B. inversion A as [?|? t E|t x y ? ?]; subst; inversion B as [?|? t' E'|t' x' y' ? ?]; subst; auto; congruence || (exfalso;
    repeat match goal with G : get_type s c = Some ?a, H : get_type s c = Some ?b |- _ => rewrite G in H; injection H as <- end;
    repeat match goal with G : st_def ?a = _ |- _ => rewrite G in * end; contradiction). Qed.
  Lemma narrow_warn_det js c p (K K' : tset) w w' : (forall T, K T <-> K' T) ->
    narrow_warn s js c p K w -> narrow_warn s js c p K' w' -> Forall2 wsame w w'.
  Proof.
    intros I A B.
    assert (E : empty_set (narrow s c K) <-> empty_set (narrow s c K')).
    { unfold empty_set, narrow. split; intros H T [X Y]; apply (H T); split; auto; apply I; auto. }
    inversion A; subst; inversion B; subst; try tauto; try constructor; try constructor.
    eapply lists_same; eauto.
  Qed.
  Lemma narrow_same c (K K' : tset) : (forall T, K T <-> K' T) -> forall T, narrow s c K T <-> narrow s c K' T.
  Proof. intros I T. unfold narrow. rewrite I. tauto. Qed.

  Definition det_s js P (K : tset) x ws es : Prop := forall (K' : tset) ws' es', (forall T, K T <-> K' T) ->
    srun s frags' dep js P K' x ws' es' -> Forall2 wsame ws ws' /\ Forall2 esame es es'.
  Definition det_p js (K : tset) c p l ws es : Prop := forall (K' : tset) ws' es', (forall T, K T <-> K' T) ->
    prun s frags' dep js K' c p l ws' es' -> Forall2 wsame ws ws' /\ Forall2 esame es es'.
  Definition det_c js P (K : tset) l ws es : Prop := forall (K' : tset) ws' es', (forall T, K T <-> K' T) ->
    crun s frags' dep js P K' l ws' es' -> Forall2 wsame ws ws' /\ Forall2 esame es es'.

  Ltac same_field := match goal with F : field_of s ?P ?n ?f, F' : field_of s ?P ?n ?f' |- _ =>
    pose proof (field_of_fun P n f f' F F'); subst f'; clear F' end.
  Ltac none := match goal with H : forall f, ~ field_of s ?P ?n f, F : field_of s ?P ?n ?f |- _ => exact (False_ind _ (H f F)) end.
  Ltac keep := split; [apply Forall2_refl; intros; constructor|apply Forall2_refl; intros; constructor].

  Lemma run_det :
    (forall js P K x ws es, srun s frags dep js P K x ws es -> det_s js P K x ws es) /\
    (forall js K c p l ws es, prun s frags dep js K c p l ws es -> det_p js K c p l ws es) /\
    (forall js P K l ws es, crun s frags dep js P K l ws es -> det_c js P K l ws es).
  Proof.
    apply (run_mutind s frags dep det_s det_p det_c).
    - intros js P K p al n a d sub l Nf L K' ws' es' I R. inversion R; subst; try (exfalso; eapply Nf; eauto; fail).
      split; constructor; constructor. eapply lists_same; eauto. tauto.
    - intros js P K p al n a d f F C K' ws' es' I R. inversion R; subst; try none; same_field; try contradiction. keep.
    - intros js P K p al n a d f x sub F C K' ws' es' I R. inversion R; subst; try none; same_field; try contradiction. keep.
    - intros js P K p al n a d f F C K' ws' es' I R. inversion R; subst; try none; same_field; try contradiction. keep.
    - intros js P K p al n a d f x sub ws F C _ IH K' ws' es' I R. inversion R; subst; try none; same_field; try contradiction;
        match goal with H : crun s frags' _ _ _ _ _ _ _ |- _ => destruct (IH _ _ _ (fun T => iff_refl _) H) as [A B] end.
      + split; auto. apply Forall2_app2; auto. apply Forall2_refl. constructor.
      + inversion B.
    - intros js P K p al n a d f x sub ws e errs F C _ IH K' ws' es' I R. inversion R; subst; try none; same_field; try contradiction;
        match goal with H : crun s frags' _ _ _ _ _ _ _ |- _ => destruct (IH _ _ _ (fun T => iff_refl _) H) as [A B] end; auto. inversion B.
    - intros js P K p d sub K' ws' es' I R. inversion R; subst. keep.
    - intros js P K p c d sub ws errs _ IH K' ws' es' I R. inversion R; subst. eapply IH; eauto.
    - intros js P K p n d l A L K' ws' es' I R. inversion R as [| | | | | | | |? ? ? ? ? ? l' A' L'|? ? ? ? ? ? fd ? ? A']; subst.
      + split; constructor; constructor. eapply lists_same; eauto. intros T. split; intros (fd & Hf); exists fd; [rewrite <- ext|rewrite ext]; auto.
      + rewrite <- ext in A'. congruence.
    - intros js P K p n d fd ws errs A _ IH K' ws' es' I R. inversion R as [| | | | | | | |? ? ? ? ? ? l' A' L'|? ? ? ? ? ? fd' ? ? A' R']; subst; rewrite <- ext in A'.
      + congruence.
      + rewrite A in A'. injection A' as <-. eapply IH; eauto.
    - intros js K c p sub e C B K' ws' es' I R. inversion R as [? ? ? ? ? e' C' B'|]; subst; [|contradiction].
      rewrite (bad_cond_fun _ _ _ _ B B'). keep.
    - intros js K c p sub w0 ws errs C N _ IH K' ws' es' I R. inversion R as [|? ? ? ? ? w1 ws1 errs1 C' N' R']; subst; [contradiction|].
      destruct (IH _ _ _ (narrow_same c _ _ I) R') as [A B]. split.
      + apply Forall2_app2; auto. eapply narrow_warn_det; eauto.
      + destruct (is_local js); auto.
    - intros js P K K' ws' es' I R. inversion R; subst. split; constructor.
    - intros js P K x l ws es ws1 es1 _ IH _ IH' K' ws' es' I R. inversion R; subst.
      match goal with H : srun s frags' _ _ _ _ _ _ _, H' : crun s frags' _ _ _ _ _ _ _ |- _ =>
        destruct (IH _ _ _ I H) as [A B]; destruct (IH' _ _ _ I H') as [A' B'] end.
      split; apply Forall2_app2; auto.
  Qed.
End Det.
