(** The distance computed by strsim is the least number of changes between the two words. *)
From Verif Require Import BaseFacts SpecEdit EditFacts.
From Verif Require Export Strsim.

#[global] Instance EqBOk_ascii : EqBOk ascii.
Proof. intros x y. apply Ascii.eqb_eq. Qed.

Lemma put_cell_length v i x : List.length (put_cell v i x) = List.length v.
Proof. revert i. induction v; destruct i; cbn; auto. Qed.
Lemma cell_put v i x j : i < List.length v -> cell (put_cell v i x) j = if i =? j then x else cell v j.
Proof.
  unfold cell. revert i j. induction v as [|h v IH]; cbn; intros i j L; [lia|].
  destruct i, j; cbn; auto. apply IH. lia.
Qed.

Lemma fold_seq_inv {S} (I : nat -> S -> Prop) (f : S -> nat -> S) n :
  forall s st, I s st -> (forall i st, s <= i < s + n -> I i st -> I (Datatypes.S i) (f st i)) ->
  I (s + n) (fold_left f (seq s n) st).
Proof.
  induction n as [|n IH]; cbn; intros s st H F.
  - rewrite Nat.add_0_r. auto.
  - replace (s + Datatypes.S n) with (Datatypes.S s + n) by lia. apply IH.
    + apply F; [lia|auto].
    + intros i st' L H'. apply F; [lia|auto].
Qed.

(** Prefixes, read from their end *)
Definition rp (w : list ascii) (i : nat) : list ascii := rev (firstn i w).

Lemma rp_0 w : rp w 0 = [].
Proof. auto. Qed.
Lemma rp_length w i : i <= List.length w -> List.length (rp w i) = i.
Proof. intros. unfold rp. rewrite rev_length, firstn_length. lia. Qed.
Lemma rp_S w i : i < List.length w -> rp w (S i) = elem w i :: rp w i.
Proof.
  unfold rp, elem. revert i. induction w as [|x w IH]; cbn [List.length]; intros i L; [lia|].
  destruct i; [cbn; auto|].
  change (firstn (S (S i)) (x :: w)) with (x :: firstn (S i) w).
  change (firstn (S i) (x :: w)) with (x :: firstn i w). cbn [rev nth].
  rewrite IH by lia. auto.
Qed.
Lemma rp_ext w k i : k <= i -> i <= List.length w -> exists u, rp w i = u ++ rp w k /\ List.length u = i - k.
Proof.
  intros L. induction L as [|i L IH]; intros Li.
  - exists []. cbn. split; [auto|lia].
  - destruct IH as (u & E & Eu); [lia|]. exists (elem w i :: u). rewrite rp_S by lia. rewrite E.
    cbn [List.length]. split; [auto|lia].
Qed.
Lemma rp_split w i u y a0 : i <= List.length w -> rp w i = u ++ y :: a0 ->
  List.length a0 < i /\ a0 = rp w (List.length a0) /\ elem w (List.length a0) = y /\
  List.length u = i - List.length a0 - 1.
Proof.
  revert u. induction i as [|i IH]; intros u L E.
  - rewrite rp_0 in E. destruct u; discriminate.
  - rewrite rp_S in E by lia. destruct u as [|x u]; cbn in E.
    + injection E as <- <-. rewrite rp_length by lia. cbn [List.length].
      split; [lia|]. split; [auto|]. split; [auto|lia].
    + injection E as _ E. destruct (IH u ltac:(lia) E) as (L1 & E1 & E2 & E3).
      split; [lia|]. split; [auto|]. split; [auto|]. cbn [List.length]. lia.
Qed.

Lemma dl_left_empty a b : List.length a = 0 -> damerau_levenshtein a b = List.length b.
Proof. destruct a; [auto|discriminate]. Qed.
Lemma dl_right_empty a b : List.length b = 0 -> damerau_levenshtein a b = List.length a.
Proof. destruct b; [destruct a; auto|discriminate]. Qed.
Lemma dl_unfold a b : List.length a <> 0 -> List.length b <> 0 ->
  damerau_levenshtein a b =
  cell (fst (fold_left (dl_outer a b) (seq 1 (List.length a)) (dl_init (List.length a) (List.length b), [])))
       ((List.length b + 1) * (List.length a + 2) + List.length a + 1).
Proof.
  intros Ha Hb. destruct a as [|x a]; [cbn in Ha; lia|]. destruct b as [|y b]; [cbn in Hb; lia|].
  unfold damerau_levenshtein. destruct (fold_left _ _ _) as [d el]. auto.
Qed.

Section Words.
  Variables a b : list ascii.
  Let la := List.length a.
  Let lb := List.length b.
  Let w := la + 2.

  (** [v] is the distance of the first [i] and the first [j] elements *)
  Definition exact (i j v : nat) : Prop := forall n, al (rp a i) (rp b j) n <-> v <= n.

  (** [k] is the last place before [i] (counted from 1) where [x] occurs in [s]; 0 for none *)
  Definition last_at (s : list ascii) (x : ascii) (i k : nat) : Prop :=
    (k = 0 \/ (1 <= k < i /\ elem s (k - 1) = x)) /\
    forall k', k < k' < i -> elem s (k' - 1) <> x.

  Lemma al_all i j : i <= la -> j <= lb -> al (rp a i) (rp b j) (i + j).
  Proof.
    intros Li Lj. rewrite <- (app_nil_r (rp a i)), <- (app_nil_r (rp b j)).
    apply (al_dels _ _ _ j); [|rewrite rp_length by auto; lia].
    apply (al_inss _ _ _ 0); [constructor|]. rewrite rp_length by auto. lia.
  Qed.

  Lemma exact_0 i : i <= la -> exact i 0 i.
  Proof.
    intros L n. split; intros H.
    - assert (G : forall x y m, al x y m -> y = [] -> List.length x <= m).
      { induction 1; intros E; try discriminate; cbn; [lia|]. specialize (IHal E). lia. }
      apply G in H; auto. rewrite rp_length in H; auto.
    - eapply al_mono; [apply al_all; auto; lia|lia].
  Qed.
  Lemma exact_0' j : j <= lb -> exact 0 j j.
  Proof.
    intros L n. split; intros H.
    - assert (G : forall x y m, al x y m -> x = [] -> List.length y <= m).
      { induction 1; intros E; try discriminate; cbn; [lia|]. specialize (IHal E). lia. }
      apply G in H; auto. rewrite rp_length in H; auto.
    - eapply al_mono; [apply al_all; auto; lia|lia].
  Qed.

  (** The recurrence *)
  Lemma exact_step i j s d1 d2 k l t :
    i < la -> j < lb ->
    exact i j s -> exact (S i) j d1 -> exact i (S j) d2 ->
    last_at a (elem b j) (S i) k -> last_at b (elem a i) (S j) l ->
    (1 <= k -> 1 <= l -> exact (k - 1) (l - 1) t) ->
    (k = 0 \/ l = 0 -> la + lb <= t) ->
    exact (S i) (S j)
      (Nat.min (s + 1 - (if eqb (elem a i) (elem b j) then 1 else 0))
         (Nat.min (d1 + 1) (Nat.min (d2 + 1) (t + (S i - k - 1) + 1 + (S j - l - 1))))).
  Proof.
    intros Li Lj Hs H1 H2 [Hk Mk] [Hl Ml] Ht Hz n.
    set (c := if eqb (elem a i) (elem b j) then 1 else 0). split; intros H.
    - rewrite (rp_S a), (rp_S b) in H by auto. inversion H; subst.
      + match goal with K : al _ (_ :: _) _ |- _ => rewrite <- rp_S in K by auto; apply H2 in K end. lia.
      + match goal with K : al (_ :: _) _ _ |- _ => rewrite <- rp_S in K by auto; apply H1 in K end. lia.
      + match goal with K : al (rp _ _) _ _ |- _ => apply Hs in K end.
        match goal with K : elem _ _ = elem _ _ |- _ =>
          assert (c = 1) by (unfold c; rewrite K, eqb_rfl; auto) end. lia.
      + match goal with K : al (rp _ _) _ _ |- _ => apply Hs in K end. lia.
      + match goal with K : _ = rp a i |- _ => rename K into Ea end.
        match goal with K : _ = rp b j |- _ => rename K into Eb end.
        match goal with K : al ?x ?y _ |- _ => rename K into K0; rename x into a0; rename y into b0 end.
        symmetry in Ea, Eb.
        apply rp_split in Ea as (La & Ea & Ya & Lu); [|lia].
        apply rp_split in Eb as (Lb & Eb & Yb & Lv); [|lia].
        assert (Ka : S (List.length a0) <= k).
        { destruct (le_lt_dec (S (List.length a0)) k); auto. exfalso.
          apply (Mk (S (List.length a0))); [lia|]. cbn. rewrite Nat.sub_0_r. auto. }
        assert (Kb : S (List.length b0) <= l).
        { destruct (le_lt_dec (S (List.length b0)) l); auto. exfalso.
          apply (Ml (S (List.length b0))); [lia|]. cbn. rewrite Nat.sub_0_r. auto. }
        destruct Hk as [->|[Rk _]]; [lia|]. destruct Hl as [->|[Rl _]]; [lia|].
        destruct (rp_ext a (List.length a0) (k - 1)) as (ua & Eua & Lua); [lia|unfold la in *; lia|].
        destruct (rp_ext b (List.length b0) (l - 1)) as (ub & Eub & Lub); [lia|unfold lb in *; lia|].
        assert (T : t <= m + List.length ua + List.length ub).
        { apply Ht; [lia|lia|]. rewrite Eua, Eub, <- Ea, <- Eb.
          apply (al_dels _ _ _ (m + List.length ub)); [|lia]. apply (al_inss _ _ _ m); auto. }
        lia.
    - assert (C : s + 1 - c <= n \/ d1 + 1 <= n \/ d2 + 1 <= n \/
                  t + (S i - k - 1) + 1 + (S j - l - 1) <= n) by lia.
      destruct C as [C|[C|[C|C]]].
      + rewrite (rp_S a), (rp_S b) by auto. unfold c in C.
        destruct (eqb (elem a i) (elem b j)) eqn:E.
        * apply eqb_ok in E. rewrite E. apply (al_eq _ _ _ s); [apply Hs; lia|lia].
        * apply (al_sub _ _ _ _ s); [apply Hs; lia|lia].
      + rewrite (rp_S b) by auto. apply (al_ins _ _ _ d1); [apply H1; lia|lia].
      + rewrite (rp_S a) by auto. apply (al_del _ _ _ d2); [apply H2; lia|lia].
      + destruct Hk as [->|[Rk Ek]].
        { eapply al_mono; [apply al_all; auto; lia|]. specialize (Hz (or_introl eq_refl)). lia. }
        destruct Hl as [->|[Rl El]].
        { eapply al_mono; [apply al_all; auto; lia|]. specialize (Hz (or_intror eq_refl)). lia. }
        rewrite (rp_S a), (rp_S b) by auto.
        destruct (rp_ext a k i) as (ua & Eua & Lua); [lia|unfold la in *; lia|].
        destruct (rp_ext b l j) as (ub & Eub & Lub); [lia|unfold lb in *; lia|].
        rewrite Eua, Eub.
        assert (Sk : rp a k = elem b j :: rp a (k - 1)).
        { replace k with (S (k - 1)) at 1 by lia. rewrite rp_S by (unfold la in *; lia). rewrite Ek. auto. }
        assert (Sl : rp b l = elem a i :: rp b (l - 1)).
        { replace l with (S (l - 1)) at 1 by lia. rewrite rp_S by (unfold lb in *; lia). rewrite El. auto. }
        rewrite Sk, Sl. apply (al_swap _ _ _ _ _ _ t); [apply Ht; lia|lia].
  Qed.

  Definition at_cell (d : list nat) (r c : nat) : nat := cell d (r * w + c).
  Definition sized (d : list nat) : Prop := List.length d = (la + 2) * (lb + 2).

  Lemma addr_in r c : r < lb + 2 -> c < w -> r * w + c < (la + 2) * (lb + 2).
  Proof. intros. fold w. nia. Qed.
  Lemma addr_inj r c r' c' : c < w -> c' < w -> r * w + c = r' * w + c' -> r = r' /\ c = c'.
  Proof.
    intros L L' E. assert (r = r').
    { destruct (lt_eq_lt_dec r r') as [[H|H]|H]; auto; exfalso; nia. }
    subst. split; [auto|lia].
  Qed.
  Lemma at_put d r c x r' c' : sized d -> r < lb + 2 -> c < w -> c' < w ->
    at_cell (put_cell d (r * w + c) x) r' c' = if (r =? r') && (c =? c') then x else at_cell d r' c'.
  Proof.
    intros Sd Lr Lc Lc'. unfold at_cell. rewrite cell_put by (rewrite Sd; apply addr_in; auto).
    destruct (r * w + c =? r' * w + c') eqn:E.
    - apply Nat.eqb_eq in E. apply addr_inj in E as [-> ->]; auto. rewrite !Nat.eqb_refl. auto.
    - destruct ((r =? r') && (c =? c')) eqn:E'; auto.
      apply andb_true_iff in E' as [E1 E2]. apply Nat.eqb_eq in E1, E2. subst.
      rewrite Nat.eqb_refl in E. discriminate.
  Qed.
  Lemma sized_put d i x : sized d -> sized (put_cell d i x).
  Proof. unfold sized. rewrite put_cell_length. auto. Qed.

  (** The sentinels, and the cells filled before the main loop *)
  Definition framed (d : list nat) : Prop :=
    sized d /\ (forall c, c < w -> at_cell d 0 c = la + lb) /\
    (forall r, r < lb + 2 -> at_cell d r 0 = la + lb).

  Lemma framed_put d r c x : framed d -> 1 <= r < lb + 2 -> 1 <= c < w ->
    framed (put_cell d (r * w + c) x).
  Proof.
    intros (Sd & F1 & F2) Lr Lc. split; [apply sized_put; auto|]. split; intros.
    - rewrite at_put by (auto; lia). replace (r =? 0) with false by (symmetry; apply Nat.eqb_neq; lia).
      cbn [andb]. auto.
    - rewrite at_put by (auto; unfold w; lia).
      replace (c =? 0) with false by (symmetry; apply Nat.eqb_neq; lia). rewrite andb_false_r. auto.
  Qed.

  Lemma init_ok : framed (dl_init la lb) /\
    (forall i, i <= la -> at_cell (dl_init la lb) 1 (i + 1) = i) /\
    (forall j, j <= lb -> at_cell (dl_init la lb) (j + 1) 1 = j).
  Proof.
    unfold dl_init. fold w.
    set (f1 := fun (d : list nat) (i : nat) => put_cell (put_cell d (i + 1) (la + lb)) (i + 1 + w) i).
    set (f2 := fun (d : list nat) (j : nat) =>
                 put_cell (put_cell d ((j + 1) * w) (la + lb)) ((j + 1) * w + 1) j).
    set (d0 := put_cell (repeat 0 (w * (lb + 2))) 0 (la + lb)).
    assert (S0 : sized d0).
    { unfold d0. apply sized_put. unfold sized. rewrite repeat_length. auto. }
    assert (Z : at_cell d0 0 0 = la + lb).
    { unfold d0. change (put_cell (repeat 0 (w * (lb + 2))) 0 (la + lb))
        with (put_cell (repeat 0 (w * (lb + 2))) (0 * w + 0) (la + lb)). rewrite at_put.
      - auto.
      - unfold sized. rewrite repeat_length. auto.
      - lia.
      - unfold w. lia.
      - unfold w. lia. }
    assert (I1 : sized (fold_left f1 (seq 0 (la + 1)) d0) /\
                 (forall c, c < la + 1 + 1 -> at_cell (fold_left f1 (seq 0 (la + 1)) d0) 0 c = la + lb) /\
                 (forall i, i < la + 1 -> at_cell (fold_left f1 (seq 0 (la + 1)) d0) 1 (i + 1) = i)).
    { apply (fold_seq_inv (fun n d => sized d /\ (forall c, c < n + 1 -> at_cell d 0 c = la + lb) /\
                                      (forall i, i < n -> at_cell d 1 (i + 1) = i)) f1 (la + 1) 0).
      - split; [auto|]. split; [|intros; lia]. intros c L. replace c with 0 by lia. auto.
      - intros i d Li (Sd & A & B). unfold f1.
        change (put_cell d (i + 1) (la + lb)) with (put_cell d (0 * w + (i + 1)) (la + lb)).
        replace (i + 1 + w) with (1 * w + (i + 1)) by lia.
        assert (Lw : i + 1 < w) by (unfold w; lia).
        split; [apply sized_put, sized_put; auto|]. split.
        + intros c Lc. rewrite at_put by (auto using sized_put; unfold w; lia). cbn [Nat.eqb andb].
          rewrite at_put by (auto; unfold w; lia). cbn [Nat.eqb andb].
          destruct (i + 1 =? c) eqn:E; auto. apply Nat.eqb_neq in E. apply A. lia.
        + intros i' Li'. rewrite at_put by (auto using sized_put; unfold w; lia). cbn [Nat.eqb andb].
          destruct (i + 1 =? i' + 1) eqn:E; [apply Nat.eqb_eq in E; lia|]. apply Nat.eqb_neq in E.
          rewrite at_put by (auto; unfold w; lia). cbn [Nat.eqb andb]. apply B. lia. }
    set (d1 := fold_left f1 (seq 0 (la + 1)) d0) in *. destruct I1 as (S1 & A1 & B1).
    assert (I2 : sized (fold_left f2 (seq 0 (lb + 1)) d1) /\
                 (forall c, c < w -> at_cell (fold_left f2 (seq 0 (lb + 1)) d1) 0 c = la + lb) /\
                 (forall i, i <= la -> at_cell (fold_left f2 (seq 0 (lb + 1)) d1) 1 (i + 1) = i) /\
                 (forall r, r < lb + 1 + 1 -> at_cell (fold_left f2 (seq 0 (lb + 1)) d1) r 0 = la + lb) /\
                 (forall j, j < lb + 1 -> at_cell (fold_left f2 (seq 0 (lb + 1)) d1) (j + 1) 1 = j)).
    { apply (fold_seq_inv (fun n d => sized d /\ (forall c, c < w -> at_cell d 0 c = la + lb) /\
                                      (forall i, i <= la -> at_cell d 1 (i + 1) = i) /\
                                      (forall r, r < n + 1 -> at_cell d r 0 = la + lb) /\
                                      (forall j, j < n -> at_cell d (j + 1) 1 = j)) f2 (lb + 1) 0).
      - split; [auto|]. split; [intros c L; apply A1; unfold w in *; lia|].
        split; [intros; apply B1; lia|]. split; [|intros; lia].
        intros r L. replace r with 0 by lia. apply A1. lia.
      - intros j d Lj (Sd & A & B & C & D). unfold f2.
        replace (put_cell d ((j + 1) * w) (la + lb)) with (put_cell d ((j + 1) * w + 0) (la + lb))
          by (f_equal; lia).
        assert (W : 2 <= w) by (unfold w; lia).
        assert (P : forall r c, c < w ->
                  at_cell (put_cell (put_cell d ((j + 1) * w + 0) (la + lb)) ((j + 1) * w + 1) j) r c =
                  if (j + 1 =? r) && (1 =? c) then j
                  else if (j + 1 =? r) && (0 =? c) then la + lb else at_cell d r c).
        { intros r c Lc. rewrite at_put by (auto using sized_put; lia). rewrite at_put by (auto; lia). auto. }
        split; [apply sized_put, sized_put; auto|]. split; [|split; [|split]].
        + intros c Lc. rewrite P by auto. replace (j + 1 =? 0) with false by (symmetry; apply Nat.eqb_neq; lia).
          cbn [andb]. auto.
        + intros i Li. rewrite P by (unfold w; lia). destruct (j + 1 =? 1) eqn:E; cbn [andb]; [|auto].
          apply Nat.eqb_eq in E. destruct (1 =? i + 1) eqn:E2; [apply Nat.eqb_eq in E2; lia|].
          replace (0 =? i + 1) with false by (symmetry; apply Nat.eqb_neq; lia). auto.
        + intros r Lr. rewrite P by lia. rewrite !andb_false_r, andb_true_r.
          destruct (j + 1 =? r) eqn:E; auto. apply Nat.eqb_neq in E. apply C. lia.
        + intros j' Lj'. rewrite P by lia. cbn [Nat.eqb]. rewrite andb_true_r, andb_false_r.
          destruct (j + 1 =? j' + 1) eqn:E; [apply Nat.eqb_eq in E; lia|]. apply Nat.eqb_neq in E.
          apply D. lia. }
    destruct I2 as (S2 & A2 & B2 & C2 & D2).
    split; [split; [auto|split; [auto|intros; apply C2; lia]]|]. split; [auto|]. intros; apply D2; lia.
  Qed.

  (** ** The main loop *)
  Definition filled (d : list nat) (i j : nat) : Prop :=
    forall i' j', i' <= la -> j' <= lb -> (i' < i \/ (i' = i /\ j' < j) \/ j' = 0) ->
    exact i' j' (at_cell d (j' + 1) (i' + 1)).

  Definition map_ok (elems : amap ascii nat) (i : nat) : Prop :=
    forall x, last_at a x i (match aget x elems with Some k => k | None => 0 end).

  Lemma inner_ok elems i d : 1 <= i <= la -> framed d -> filled d i 1 -> map_ok elems i ->
    framed (fst (fold_left (dl_inner a b elems i) (seq 1 lb) (d, 0))) /\
    filled (fst (fold_left (dl_inner a b elems i) (seq 1 lb) (d, 0))) (i + 1) 1.
  Proof.
    intros Li F0 G0 M.
    assert (I : framed (fst (fold_left (dl_inner a b elems i) (seq 1 lb) (d, 0))) /\
                filled (fst (fold_left (dl_inner a b elems i) (seq 1 lb) (d, 0))) i (1 + lb) /\
                last_at b (elem a (i - 1)) (1 + lb) (snd (fold_left (dl_inner a b elems i) (seq 1 lb) (d, 0)))).
    { apply (fold_seq_inv (fun j st => framed (fst st) /\ filled (fst st) i j /\
                                       last_at b (elem a (i - 1)) j (snd st))).
      - cbn [fst snd]. split; [auto|]. split; [auto|]. split; [auto|]. intros; lia.
      - intros j [d1 db] Lj (F & G & Hdb). cbn [fst snd] in *.
        assert (W : w = la + 2) by auto.
        unfold dl_inner. fold la. fold w. cbn [fst snd].
        set (k := match aget (elem b (j - 1)) elems with Some k => k | None => 0 end).
        assert (Hk : last_at a (elem b (j - 1)) i k) by apply M.
        assert (Lk : k < i) by (destruct Hk as [[->|[]] _]; lia).
        assert (Ldb : db < j) by (destruct Hdb as [[->|[]] _]; lia).
        set (v := Nat.min _ _).
        assert (V : exact i j v).
        { unfold v.
          replace (j * w + i + 1) with (j * w + (i + 1)) by lia. fold (at_cell d1 j (i + 1)).
          fold (at_cell d1 (j + 1) i) (at_cell d1 db k) (at_cell d1 j i).
          destruct i as [|i0]; [lia|]. destruct j as [|j0]; [lia|].
          cbn [Nat.sub] in Hk, Hdb. rewrite Nat.sub_0_r in Hk, Hdb.
          replace (S i0 - 1) with i0 by lia. replace (S j0 - 1) with j0 by lia.
          apply exact_step; auto; try lia.
          - replace (S j0) with (j0 + 1) by lia. replace (S i0) with (i0 + 1) by lia. apply G; lia.
          - replace (S j0) with (j0 + 1) by lia. apply G; lia.
          - replace (at_cell d1 (S j0 + 1) (S i0)) with (at_cell d1 (S j0 + 1) (i0 + 1)) by (f_equal; lia).
            apply G; lia.
          - intros Kp Dp. replace db with (db - 1 + 1) at 2 by lia. replace k with (k - 1 + 1) at 2 by lia.
            apply G; lia.
          - intros [->| ->]; destruct F as (_ & F1 & F2); [rewrite F2|rewrite F1]; lia. }
        assert (Fr : framed (put_cell d1 ((j + 1) * w + i + 1) v)).
        { replace ((j + 1) * w + i + 1) with ((j + 1) * w + (i + 1)) by lia. apply framed_put; auto; lia. }
        split; [auto|]. split.
        + intros i' j' Li' Lj' C. replace ((j + 1) * w + i + 1) with ((j + 1) * w + (i + 1)) by lia.
          rewrite at_put by (try lia; apply F).
          destruct ((j + 1 =? j' + 1) && (i + 1 =? i' + 1)) eqn:E.
          * apply andb_true_iff in E as [E1 E2]. apply Nat.eqb_eq in E1, E2.
            replace i' with i by lia. replace j' with j by lia. auto.
          * apply G; auto. apply andb_false_iff in E.
            destruct E as [E|E]; apply Nat.eqb_neq in E; lia.
        + destruct (eqb (elem a (i - 1)) (elem b (j - 1))) eqn:E.
          * apply eqb_ok in E. split; [right; split; [lia|auto]|]. intros; lia.
          * apply eqb_neq in E. destruct Hdb as [H1 H2]. split.
            -- destruct H1 as [->|[H1 H1']]; [auto|right; split; [lia|auto]].
            -- intros k' Lk'. destruct (Nat.eq_dec k' j) as [->|N]; [auto|]. apply H2. lia. }
    destruct I as (I1 & I2 & _). split; [auto|].
    intros i' j' Li' Lj' C. apply I2; auto. lia.
  Qed.

  Theorem distance_exact n : damerau_levenshtein a b <= n <-> al (rev a) (rev b) n.
  Proof.
    assert (E : exact la lb (damerau_levenshtein a b)).
    { destruct (Nat.eq_dec la 0) as [Z|Nz].
      - rewrite dl_left_empty by auto. fold lb. rewrite Z. apply exact_0'. auto.
      - destruct (Nat.eq_dec lb 0) as [Z|Nz'].
        + rewrite dl_right_empty by auto. fold la. rewrite Z. apply exact_0. auto.
        + assert (E : damerau_levenshtein a b =
                      at_cell (fst (fold_left (dl_outer a b) (seq 1 la) (dl_init la lb, []))) (lb + 1) (la + 1)).
          { rewrite dl_unfold by auto. unfold at_cell. fold la lb w. f_equal. lia. }
          rewrite E. clear E. set (st := fold_left (dl_outer a b) (seq 1 la) (dl_init la lb, [])).
          assert (I : framed (fst st) /\ filled (fst st) (1 + la) 1 /\ map_ok (snd st) (1 + la)).
          { apply (fold_seq_inv (fun i st => framed (fst st) /\ filled (fst st) i 1 /\ map_ok (snd st) i)).
            - destruct init_ok as (F & A & B). cbn [fst snd]. split; [auto|]. split.
              + intros i' j' Li' Lj' C. destruct (Nat.eq_dec j' 0) as [->|N].
                * rewrite A by auto. apply exact_0. auto.
                * assert (i' = 0) by lia. subst i'. rewrite B by auto. apply exact_0'. auto.
              + intros x. cbn. split; [auto|]. intros; lia.
            - intros i [d el] Li (F & G & M). cbn [fst snd] in *. unfold dl_outer.
              destruct (inner_ok el i d) as [F' G']; auto; [lia|].
              fold lb. destruct (fold_left (dl_inner a b el i) (seq 1 lb) (d, 0)) as [d' db].
              cbn [fst snd] in *. split; [auto|]. split; [replace (S i) with (i + 1) by lia; auto|].
              intros x. rewrite aget_aset. destruct (eqb x (elem a (i - 1))) eqn:E.
              + apply eqb_ok in E. subst x. split; [right; split; [lia|auto]|]. intros; lia.
              + apply eqb_neq in E. destruct (M x) as [H1 H2]. split.
                * destruct H1 as [->|[H1 H1']]; [auto|right; split; [lia|auto]].
                * intros k' Lk'. destruct (Nat.eq_dec k' i) as [->|N]; [auto|]. apply H2. lia. }
          destruct I as (_ & I & _). apply I; lia. }
    specialize (E n). unfold rp, la, lb in E. rewrite !firstn_all in E. symmetry. auto.
  Qed.

  Theorem distance_least n : damerau_levenshtein a b <= n <-> exists m, m <= n /\ edits m a b.
  Proof.
    rewrite distance_exact, al_spec. split; intros (m & L & H); exists m; (split; [auto|]);
      apply edits_rev_iff; auto.
  Qed.
End Words.
