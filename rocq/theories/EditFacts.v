(** Alignments of two words (with crossing pairs) cost no more than edit scripts, and no less. *)
From Verif Require Import BaseFacts SpecEdit.

Local Notation word := (list ascii).

Inductive al : word -> word -> nat -> Prop :=
| al_nil n : al [] [] n
| al_del x a b m n : al a b m -> m + 1 <= n -> al (x :: a) b n
| al_ins y a b m n : al a b m -> m + 1 <= n -> al a (y :: b) n
| al_eq x a b m n : al a b m -> m <= n -> al (x :: a) (x :: b) n
| al_sub x y a b m n : al a b m -> m + 1 <= n -> al (x :: a) (y :: b) n
| al_swap x y u v a b m n : al a b m -> m + List.length u + 1 + List.length v <= n ->
    al (x :: u ++ y :: a) (y :: v ++ x :: b) n.

Lemma al_mono a b m n : al a b m -> m <= n -> al a b n.
Proof.
  intros H. revert n. induction H; intros n' L.
  - constructor.
  - eapply al_del; eauto; lia.
  - eapply al_ins; eauto; lia.
  - eapply al_eq; eauto; lia.
  - eapply al_sub; eauto; lia.
  - eapply al_swap; eauto; lia.
Qed.

Lemma al_refl a n : al a a n.
Proof. induction a; [constructor|]. eapply al_eq; eauto. Qed.

Lemma al_dels u a b m n : al a b m -> m + List.length u <= n -> al (u ++ a) b n.
Proof.
  revert n. induction u as [|x u IH]; cbn; intros n H L.
  - eapply al_mono; eauto; lia.
  - eapply (al_del _ _ _ (m + List.length u)); [apply IH; auto|lia].
Qed.
Lemma al_inss v a b m n : al a b m -> m + List.length v <= n -> al a (v ++ b) n.
Proof.
  revert n. induction v as [|x v IH]; cbn; intros n H L.
  - eapply al_mono; eauto; lia.
  - eapply (al_ins _ _ _ (m + List.length v)); [apply IH; auto|lia].
Qed.

(** What an alignment does with the first element of the right word *)
Lemma al_view a b' n : al a b' n -> forall q b, b' = q :: b ->
  exists u a1, a = u ++ a1 /\
    ((exists m, al a1 b m /\ m + List.length u + 1 <= n)
     \/ (exists q' a2 m, a1 = q' :: a2 /\ al a2 b m /\
           ((q' = q /\ m + List.length u <= n) \/ m + List.length u + 1 <= n))
     \/ (exists x u2 v2 a2 b2 m, a1 = x :: u2 ++ q :: a2 /\ b = v2 ++ x :: b2 /\ al a2 b2 m /\
           m + List.length u + List.length u2 + 1 + List.length v2 <= n)).
Proof.
  induction 1 as [n | x a b0 m n H IH L | y a b0 m n H IH L | x a b0 m n H IH L | x y a b0 m n H IH L
                 | x y u v a b0 m n H IH L]; intros q b E.
  - discriminate.
  - destruct (IH q b E) as (u & a1 & -> & C). exists (x :: u), a1. split; [auto|].
    cbn [List.length]. destruct C as [(k & Hk & Lk) | [(q' & a2 & k & -> & Hk & Lk) | C]].
    + left. exists k. split; auto; lia.
    + right; left. exists q', a2, k. split; [auto|]. split; [auto|].
      destruct Lk as [[-> Lk]|Lk]; [left; split; auto; lia | right; lia].
    + destruct C as (z & u2 & v2 & a2 & b2 & k & -> & -> & Hk & Lk).
      right; right. exists z, u2, v2, a2, b2, k. repeat (split; [auto; fail|]). lia.
  - injection E as -> ->. exists [], a. split; [auto|]. left. exists m. cbn. split; auto; lia.
  - injection E as -> ->. exists [], (q :: a). split; [auto|]. right; left. exists q, a, m.
    split; [auto|]. split; [auto|]. left. cbn. split; auto; lia.
  - injection E as -> ->. exists [], (x :: a). split; [auto|]. right; left. exists x, a, m.
    split; [auto|]. split; [auto|]. right. cbn. lia.
  - injection E as -> <-. exists [], (x :: u ++ q :: a). split; [auto|]. right; right.
    exists x, u, v, a, b0, m. repeat (split; [auto; fail|]). cbn. lia.
Qed.

Lemma app_split {A} (l1 l2 m1 m2 : list A) : l1 ++ l2 = m1 ++ m2 ->
  (exists k, l1 = m1 ++ k /\ m2 = k ++ l2) \/ (exists k, m1 = l1 ++ k /\ l2 = k ++ m2).
Proof.
  revert m1. induction l1 as [|x l1 IH]; cbn; intros m1 E.
  - right. exists m1. auto.
  - destruct m1 as [|y m1]; cbn in E.
    + left. exists (x :: l1). auto.
    + injection E as -> E. destruct (IH _ E) as [(k & -> & ->)|(k & -> & ->)]; [left|right]; exists k; auto.
Qed.

(** ** One change in the right word costs at most one *)
Lemma al_insert a b n : al a b n -> forall l r z, b = l ++ r -> al a (l ++ z :: r) (S n).
Proof.
  induction 1 as [n | x a b m n H IH L | y a b m n H IH L | x a b m n H IH L | x y a b m n H IH L
                 | x y u v a b m n H IH L]; intros l r z E.
  - destruct l; [|discriminate]. cbn in E. subst r. cbn. eapply al_ins; [apply (al_nil 0)|lia].
  - eapply al_del; [apply IH; eauto|lia].
  - destruct l as [|w l]; cbn in *.
    + subst r. eapply al_ins; [eapply al_ins; eauto|lia].
    + injection E as -> E. eapply al_ins; [apply IH; eauto|lia].
  - destruct l as [|w l]; cbn in *.
    + subst r. eapply al_ins; [eapply al_eq; eauto|lia].
    + injection E as -> E. eapply al_eq; [apply IH; eauto|lia].
  - destruct l as [|w l]; cbn in *.
    + subst r. eapply al_ins; [eapply al_sub; eauto|lia].
    + injection E as -> E. eapply al_sub; [apply IH; eauto|lia].
  - destruct l as [|w l]; cbn in *.
    + subst r. eapply al_ins; [eapply al_swap; eauto|lia].
    + injection E as -> E. apply app_split in E as [(k & -> & ->)|(k & -> & E)].
      * replace (w :: l ++ z :: k ++ x :: b) with (w :: (l ++ z :: k) ++ x :: b)
          by (rewrite <- app_assoc; auto).
        eapply al_swap; eauto. rewrite !app_length in *. cbn. lia.
      * destruct k as [|w' k]; cbn in E.
        -- subst r. rewrite app_nil_r.
           replace (w :: v ++ z :: x :: b) with (w :: (v ++ [z]) ++ x :: b)
             by (rewrite <- app_assoc; auto).
           eapply al_swap; eauto. rewrite !app_length in *. cbn. lia.
        -- injection E as -> E. rewrite <- app_assoc. cbn. eapply al_swap; [apply IH; eauto|lia].
Qed.

(** The two ways of undoing one half of a crossing pair *)
Lemma al_uncross_l x y u v a b m n : al a b m -> m + List.length u + 1 + List.length v <= n ->
  al (x :: u ++ y :: a) (v ++ x :: b) n.
Proof.
  intros H L. apply (al_inss v _ _ (m + List.length u + 1)); [|lia].
  eapply al_eq; [|apply Nat.le_refl]. change (y :: a) with ([y] ++ a). rewrite app_assoc.
  apply (al_dels _ _ _ m); auto. rewrite app_length. cbn. lia.
Qed.
Lemma al_uncross_r x y u v a b m n : al a b m -> m + List.length u + 1 + List.length v <= n ->
  al (x :: u ++ y :: a) (y :: v ++ b) n.
Proof.
  intros H L. change (x :: u ++ y :: a) with ((x :: u) ++ y :: a).
  apply (al_dels _ _ _ (m + List.length v)); [|cbn; lia].
  eapply al_eq; [|apply Nat.le_refl]. apply (al_inss v _ _ m); auto.
Qed.

Lemma al_delete a b n : al a b n -> forall l r z, b = l ++ z :: r -> al a (l ++ r) (S n).
Proof.
  induction 1 as [n | x a b m n H IH L | y a b m n H IH L | x a b m n H IH L | x y a b m n H IH L
                 | x y u v a b m n H IH L]; intros l r z E.
  - destruct l; discriminate.
  - eapply al_del; [apply (IH l r z); eauto|lia].
  - destruct l as [|w l]; cbn in *.
    + injection E as -> ->. eapply al_mono; eauto; lia.
    + injection E as -> E. eapply al_ins; [apply (IH l r z); eauto|lia].
  - destruct l as [|w l]; cbn in *.
    + injection E as -> ->. eapply al_del; eauto; lia.
    + injection E as -> E. eapply al_eq; [apply (IH l r z); eauto|lia].
  - destruct l as [|w l]; cbn in *.
    + injection E as -> ->. eapply al_del; eauto; lia.
    + injection E as -> E. eapply al_sub; [apply (IH l r z); eauto|lia].
  - destruct l as [|w l]; cbn in *.
    + injection E as -> <-. eapply al_uncross_l; eauto.
    + injection E as -> E. apply app_split in E as [(k & -> & E)|(k & -> & E)].
      * destruct k as [|w' k]; cbn in E.
        -- injection E as -> ->. rewrite app_nil_r in *. eapply al_uncross_r; eauto.
        -- injection E as -> ->. rewrite app_assoc. eapply al_swap; eauto.
           rewrite !app_length in *. cbn in *. lia.
      * destruct k as [|w' k]; cbn in E.
        -- injection E as -> ->. rewrite app_nil_r. eapply al_uncross_r; eauto.
        -- injection E as -> E. rewrite <- app_assoc. cbn. eapply al_swap; [apply (IH k r z); eauto|lia].
Qed.

Lemma al_replace a b n : al a b n -> forall l r z z', b = l ++ z :: r -> al a (l ++ z' :: r) (S n).
Proof.
  induction 1 as [n | x a b m n H IH L | y a b m n H IH L | x a b m n H IH L | x y a b m n H IH L
                 | x y u v a b m n H IH L]; intros l r z z' E.
  - destruct l; discriminate.
  - eapply al_del; [apply (IH l r z); eauto|lia].
  - destruct l as [|w l]; cbn in *.
    + injection E as -> ->. eapply al_ins; eauto; lia.
    + injection E as -> E. eapply al_ins; [apply (IH l r z); eauto|lia].
  - destruct l as [|w l]; cbn in *.
    + injection E as -> ->. eapply al_sub; eauto; lia.
    + injection E as -> E. eapply al_eq; [apply (IH l r z); eauto|lia].
  - destruct l as [|w l]; cbn in *.
    + injection E as -> ->. eapply al_sub; eauto; lia.
    + injection E as -> E. eapply al_sub; [apply (IH l r z); eauto|lia].
  - destruct l as [|w l]; cbn in *.
    + injection E as -> <-. eapply al_ins; [eapply al_uncross_l; eauto|lia].
    + injection E as -> E. apply app_split in E as [(k & -> & E)|(k & -> & E)].
      * destruct k as [|w' k]; cbn in E.
        -- injection E as -> ->. rewrite app_nil_r in *.
           replace (w :: l ++ z' :: b) with (w :: (l ++ [z']) ++ b) by (rewrite <- app_assoc; auto).
           eapply al_uncross_r; eauto. rewrite app_length. cbn. lia.
        -- injection E as -> ->.
           replace (w :: l ++ z' :: k ++ x :: b) with (w :: (l ++ z' :: k) ++ x :: b)
             by (rewrite <- app_assoc; auto).
           eapply al_swap; eauto. rewrite !app_length in *. cbn in *. lia.
      * destruct k as [|w' k]; cbn in E.
        -- injection E as -> ->. rewrite app_nil_r.
           replace (w :: v ++ z' :: r) with (w :: (v ++ [z']) ++ r) by (rewrite <- app_assoc; auto).
           eapply al_uncross_r; eauto. rewrite app_length. cbn. lia.
        -- injection E as -> E. rewrite <- app_assoc. cbn. eapply al_swap; [apply (IH k r z); eauto|lia].
Qed.

Lemma al_exchange_head a p q b n : al a (p :: q :: b) n -> al a (q :: p :: b) (S n).
Proof.
  intros H. destruct (al_view _ _ _ H p (q :: b) eq_refl) as (u & a1 & -> & C).
  destruct C as [(m & Hm & L) | [(p' & a2 & m & -> & Hm & L) | (x & u2 & v2 & a2 & b2 & m & -> & E & Hm & L)]].
  - apply (al_dels _ _ _ (S m)); [|lia]. apply (al_insert _ _ _ Hm [q] b p). auto.
  - destruct (al_view _ _ _ Hm q b eq_refl) as (u' & a3 & -> & C).
    destruct C as [(k & Hk & L') | [(q' & a4 & k & -> & Hk & L')
                                  | (x & u2 & v2 & a4 & b2 & k & -> & -> & Hk & L')]].
    + apply (al_dels _ _ _ (S n - List.length u)); [|lia].
      apply (al_ins _ _ _ (n - List.length u)); [|lia].
      destruct L as [[-> L]|L].
      * apply (al_eq _ _ _ (k + List.length u')); [|lia]. eapply al_dels; eauto.
      * apply (al_sub _ _ _ _ (k + List.length u')); [|lia]. eapply al_dels; eauto.
    + apply (al_dels _ _ _ (S n - List.length u)); [|lia].
      assert (G : n - List.length u >= k + List.length u' + 1 ->
                  al (p' :: u' ++ q' :: a4) (q :: p :: b) (S n - List.length u)).
      { intros G. apply (al_sub _ _ _ _ (k + List.length u' + 1)); [|lia].
        apply (al_dels _ _ _ (k + 1)); [|lia]. eapply al_sub; eauto. }
      destruct L as [[-> L]|L]; [|apply G; lia].
      destruct L' as [[-> L']|L']; [|apply G; lia].
      apply (al_swap p q u' [] a4 b k); [auto|]. cbn [List.length]. lia.
    + apply (al_dels _ _ _ (S n - List.length u)); [|lia].
      destruct L as [[-> L]|L].
      * apply (al_ins _ _ _ (n - List.length u)); [|lia].
        apply (al_eq _ _ _ (n - List.length u)); [|lia].
        apply (al_dels _ _ _ (k + List.length u2 + 1 + List.length v2)); [|lia].
        eapply al_uncross_l; eauto.
      * change (p' :: u' ++ x :: u2 ++ q :: a4) with ((p' :: u') ++ x :: u2 ++ q :: a4).
        apply (al_dels _ _ _ (k + List.length u2 + 1 + S (List.length v2))); [|cbn [List.length]; lia].
        apply (al_swap _ _ _ (p :: v2) _ _ k); auto.
  - apply (al_dels _ _ _ (S n - List.length u)); [|lia].
    destruct v2 as [|w v2]; cbn in E.
    + injection E as -> ->. eapply al_eq; [|apply Nat.le_refl].
      apply (al_dels _ _ _ (S n - List.length u - List.length u2)); [|lia].
      eapply al_eq; [eauto|lia].
    + injection E as -> ->. apply (al_ins _ _ _ (n - List.length u)); [|lia].
      eapply al_swap; eauto. cbn in *. lia.
Qed.

Lemma al_exchange_end x y u v a q b m n : al a (q :: b) m ->
  m + List.length u + 1 + List.length v <= n ->
  al (x :: u ++ y :: a) (y :: v ++ q :: x :: b) (S n).
Proof.
  intros H L. destruct (al_view _ _ _ H q b eq_refl) as (u0 & a1 & -> & C).
  replace (y :: v ++ q :: x :: b) with (y :: (v ++ [q]) ++ x :: b) by (rewrite <- app_assoc; auto).
  destruct C as [(k & Hk & L') | [(q' & a2 & k & -> & Hk & L')
                                | (x2 & u2 & v2 & a2 & b2 & k & -> & -> & Hk & L')]].
  - apply (al_swap _ _ _ _ _ _ (k + List.length u0)); [apply (al_dels _ _ _ k); auto|].
    rewrite app_length. cbn [List.length]. lia.
  - destruct L' as [[-> L']|L'].
    + change (x :: u ++ y :: u0 ++ q :: a2) with ((x :: u) ++ y :: u0 ++ q :: a2).
      apply (al_dels _ _ _ (S n - S (List.length u))); [|cbn; lia].
      eapply al_eq; [|apply Nat.le_refl]. rewrite <- app_assoc. cbn.
      apply (al_inss _ _ _ (k + List.length u0 + 1)); [|lia].
      apply (al_dels _ _ _ (k + 1)); [|lia].
      eapply al_eq; [|apply Nat.le_refl]. eapply al_ins; eauto.
    + eapply (al_swap _ _ _ _ _ _ (k + List.length u0 + 1));
        [apply (al_dels _ _ _ (k + 1)); [eapply al_del; eauto|lia]|].
      rewrite app_length. cbn. lia.
  - apply (al_swap _ _ _ _ _ _ (k + List.length u2 + 1 + List.length v2 + List.length u0)).
    + apply (al_dels _ _ _ (k + List.length u2 + 1 + List.length v2)); auto. eapply al_uncross_l; eauto.
    + rewrite app_length. cbn [List.length]. lia.
Qed.

Lemma al_exchange a b n : al a b n -> forall l r p q, b = l ++ p :: q :: r -> al a (l ++ q :: p :: r) (S n).
Proof.
  induction 1 as [n | x a b m n H IH L | y a b m n H IH L | x a b m n H IH L | x y a b m n H IH L
                 | x y u v a b m n H IH L]; intros l r p q E.
  - destruct l; discriminate.
  - eapply al_del; [apply (IH l r p q); eauto|lia].
  - destruct l as [|w l]; cbn in *.
    + injection E as -> ->. apply al_exchange_head. eapply al_ins; eauto.
    + injection E as -> E. eapply al_ins; [apply (IH l r p q); eauto|lia].
  - destruct l as [|w l]; cbn in *.
    + injection E as -> ->. apply al_exchange_head. eapply al_eq; eauto.
    + injection E as -> E. eapply al_eq; [apply (IH l r p q); eauto|lia].
  - destruct l as [|w l]; cbn in *.
    + injection E as -> ->. apply al_exchange_head. eapply al_sub; eauto.
    + injection E as -> E. eapply al_sub; [apply (IH l r p q); eauto|lia].
  - destruct l as [|w l]; cbn in *.
    + injection E as -> E. apply al_exchange_head. rewrite <- E. eapply al_swap; eauto.
    + injection E as -> E. apply app_split in E as [(k & -> & E)|(k & -> & E)].
      * destruct k as [|w' [|w'' k]]; cbn in E.
        -- injection E as -> <-. rewrite app_nil_r in *. eapply al_exchange_end; eauto.
        -- injection E as -> -> ->.
           apply (al_mono _ _ n); [|lia]. eapply al_swap; [eapply al_ins; eauto|].
           rewrite app_length in L. cbn in L. lia.
        -- injection E as -> -> ->.
           replace (w :: l ++ w'' :: w' :: k ++ x :: b) with (w :: (l ++ w'' :: w' :: k) ++ x :: b)
             by (rewrite <- app_assoc; auto).
           eapply al_swap; eauto. rewrite app_length in *. cbn in *. lia.
      * destruct k as [|w' k]; cbn in E.
        -- injection E as -> ->. rewrite app_nil_r. eapply al_exchange_end; eauto.
        -- injection E as -> E. rewrite <- app_assoc. cbn.
           eapply al_swap; [apply (IH k r p q); eauto|lia].
Qed.

Theorem al_edit1 a b c n : al a b n -> edit1 b c -> al a c (S n).
Proof.
  intros H E. destruct E.
  - eapply al_insert; eauto.
  - eapply al_delete; eauto.
  - eapply al_replace; eauto.
  - eapply al_exchange; eauto.
Qed.

Theorem edits_al a b n : edits n a b -> al a b n.
Proof. induction 1; [apply al_refl|]. eapply al_edit1; eauto. Qed.

(** ** Edit scripts from alignments *)
Lemma edits_trans m n a b c : edits m a b -> edits n b c -> edits (m + n) a c.
Proof.
  intros H1 H2. revert m H1. induction H2 as [|n b c d H2 IH H3]; intros m H1.
  - rewrite Nat.add_0_r. auto.
  - rewrite Nat.add_succ_r. econstructor; [apply IH; auto|auto].
Qed.
Lemma edit1_cons x a b : edit1 a b -> edit1 (x :: a) (x :: b).
Proof.
  intros H. destruct H.
  - apply (ed_insert (x :: l)).
  - apply (ed_delete (x :: l)).
  - apply (ed_replace (x :: l)).
  - apply (ed_exchange (x :: l)).
Qed.
Lemma edits_cons x n a b : edits n a b -> edits n (x :: a) (x :: b).
Proof. induction 1; econstructor; eauto using edit1_cons. Qed.
Lemma edits_one a b : edit1 a b -> edits 1 a b.
Proof. intros H. econstructor; [constructor|auto]. Qed.
Lemma edits_app u n a b : edits n a b -> edits n (u ++ a) (u ++ b).
Proof. intros. induction u; cbn; auto using edits_cons. Qed.
Lemma edits_drop u a : edits (List.length u) (u ++ a) a.
Proof.
  induction u as [|x u IH]; cbn; [constructor|].
  change (S (List.length u)) with (1 + List.length u). eapply edits_trans; [apply edits_one|exact IH].
  apply (ed_delete []).
Qed.
Lemma edits_add v a : edits (List.length v) a (v ++ a).
Proof.
  induction v as [|x v IH]; cbn; [constructor|].
  econstructor; [exact IH|]. apply (ed_insert []).
Qed.

Theorem al_edits a b n : al a b n -> exists m, m <= n /\ edits m a b.
Proof.
  induction 1 as [n | x a b m n H (k & Lk & IH) L | y a b m n H (k & Lk & IH) L
                 | x a b m n H (k & Lk & IH) L | x y a b m n H (k & Lk & IH) L
                 | x y u v a b m n H (k & Lk & IH) L].
  - exists 0. split; [lia|constructor].
  - exists (1 + k). split; [lia|]. eapply edits_trans; [apply edits_one, (ed_delete [])|exact IH].
  - exists (S k). split; [lia|]. econstructor; [exact IH|]. apply (ed_insert []).
  - exists k. split; [lia|]. apply edits_cons. auto.
  - exists (S k). split; [lia|]. econstructor; [apply edits_cons; exact IH|]. apply (ed_replace []).
  - exists (List.length u + (1 + (k + List.length v))). split; [lia|].
    eapply edits_trans; [apply (edits_cons x), edits_drop|].
    eapply edits_trans; [apply edits_one, (ed_exchange [])|]. apply edits_cons.
    eapply edits_trans; [apply edits_cons; exact IH|]. apply (edits_add v).
Qed.

Theorem al_spec a b n : al a b n <-> exists m, m <= n /\ edits m a b.
Proof.
  split; [apply al_edits|]. intros (m & L & H). apply (al_mono _ _ m); auto. apply edits_al. auto.
Qed.

(** ** Reading the words from the other end *)
Lemma edit1_rev a b : edit1 a b -> edit1 (rev a) (rev b).
Proof.
  intros H. destruct H; rewrite !rev_app_distr; cbn [rev]; rewrite <- ?app_assoc; cbn.
  - apply (ed_insert (rev r)).
  - apply (ed_delete (rev r)).
  - apply (ed_replace (rev r)).
  - apply (ed_exchange (rev r)).
Qed.
Lemma edits_rev n a b : edits n a b -> edits n (rev a) (rev b).
Proof. induction 1; econstructor; eauto using edit1_rev. Qed.
Lemma edits_rev_iff n a b : edits n (rev a) (rev b) <-> edits n a b.
Proof.
  split; [|apply edits_rev]. intros H. apply edits_rev in H. rewrite !rev_involutive in H. auto.
Qed.
