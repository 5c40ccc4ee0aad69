(** Termination of field collection. *)
From Verif Require Export DiagFacts.

Section Term.
  Variable cx : ctx.
  Notation s := (cx_schema cx).
  Notation frags := (cx_frags cx).
  Notation o := (cx_order cx).
  Hypothesis o_ok : order_ok o.
  Hypothesis cons_ok : consistent s.
  Notation leads := (leads s frags).
  Definition below (b a : string * list selection) : Prop := leads a b.

  Lemma leads_incl P l l' x : incl l l' -> leads (P, l) x -> leads (P, l') x.
  Proof. intros H L. inversion L; subst; [eapply le_field|eapply le_inline|eapply le_spread]; eauto. Qed.

  (** A collector that answers for a selection set *)
  Definition answers (rec : collector) (P : string) (l : list selection) : Prop :=
    forall pth keys par js, shaped_ct s P keys par -> rec pth l par js <> None.

  Lemma sel_step_total rec pth i x P keys par js :
    rec_ok cx rec -> shaped_ct s P keys par ->
    (forall Q l, leads (P, [x]) (Q, l) -> answers rec Q l) ->
    sel_step rec cx pth i x par js <> None.
  Proof.
    intros R Sh H. destruct x as [p al n a d sub|p n d|p c d sub]; cbn [sel_step].
    - unfold insert_field. pose proof Sh as [A B N Kk Rr].
      destruct (aget n (ct_lookup par)) as [f|] eqn:E; [|discriminate].
      assert (F : field_of s P n f) by (apply (field_of_lookup s P _ n f B); auto).
      assert (Sf : schema_field s f) by (exists P, n; auto).
      pose proof (complex_composite cx cons_ok P n f F) as CC. cbn zeta in CC.
      destruct sub as [|x sub]; destruct (fdef_is_complex (ft_def (sf_type f))) eqn:D; try discriminate.
      + destruct (insert_all _ _ _ _ _ _ _) as [? [?|]]; discriminate.
      + destruct (new_ctrav s (ft_name (sf_type f)) p) as [subp|e] eqn:En; [|discriminate].
        destruct (sh_new s o _ _ _ En) as (C & Shs & Kp).
        assert (L : leads (P, [SField p al n a d (x :: sub)]) (ft_name (sf_type f), x :: sub)).
        { eapply le_field; eauto; [left; reflexivity|discriminate]. }
        pose proof (H _ _ L (2 :: i :: pth) _ _ js Shs) as Hr.
        destruct (rec (2 :: i :: pth) (x :: sub) subp js) as [[[sub' ws'] es']|] eqn:Er; [|congruence].
        destruct es'; [|discriminate]. destruct (insert_all _ _ _ _ _ _ _) as [? [?|]]; discriminate.
    - destruct (aget n frags) as [fd|] eqn:E; [|discriminate]. unfold spread_into.
      destruct (clone_for_type_spread cx _ par (fr_cond fd) p _) as [[subp w0]|e] eqn:Ec; [|discriminate].
      destruct (sh_clone _ _ _ _ _ _ _ _ _ _ Ec Sh) as (C & Shs & Kc & Ew).
      assert (L : leads (P, [SSpread p n d]) (fr_cond fd, fr_sels fd)).
      { eapply le_spread; eauto. left; reflexivity. }
      pose proof (H _ _ L (1 :: i :: pth) _ _ (jump_foreign js) Shs) as Hr.
      destruct (rec _ (fr_sels fd) subp _) as [[[sub' ws'] es']|] eqn:Er; [|congruence].
      destruct es'; [|discriminate]. destruct (extend_ct _ _ _ _) as [? [?|]]; discriminate.
    - destruct c as [c|]; [|discriminate]. unfold spread_into.
      destruct (clone_for_type_spread cx _ par c p _) as [[subp w0]|e] eqn:Ec; [|discriminate].
      destruct (sh_clone _ _ _ _ _ _ _ _ _ _ Ec Sh) as (C & Shs & Kc & Ew).
      assert (L : leads (P, [SInline p (Some c) d sub]) (c, sub)).
      { eapply le_inline; eauto. left; reflexivity. }
      pose proof (H _ _ L (1 :: i :: pth) _ _ (jump_inline js) Shs) as Hr.
      destruct (rec _ sub subp _) as [[[sub' ws'] es']|] eqn:Er; [|congruence].
      destruct es'; [|discriminate]. destruct (extend_ct _ _ _ _) as [? [?|]]; discriminate.
  Qed.

  Lemma loop_total rec l : rec_ok cx rec -> forall pth i P keys par js ws es,
    shaped_ct s P keys par -> (forall Q l', leads (P, l) (Q, l') -> answers rec Q l') ->
    collect_loop rec cx pth i l par js ws es <> None.
  Proof.
    intros R. induction l as [|x l IH]; intros pth i P keys par js ws es Sh H; [discriminate|].
    rewrite collect_loop_cons.
    pose proof (sel_step_total rec pth i x P keys par js R Sh) as St.
    destruct (sel_step rec cx pth i x par js) as [r|] eqn:E.
    2: { exfalso. apply St; auto. intros Q l' L. apply H. eapply leads_incl; [|exact L]. intros y [<-|[]]. left; auto. }
    destruct (sel_step_run cx o_ok cons_ok _ _ _ _ P (fun T => In T keys) _ _ _ _ R Sh (fun T => iff_refl _) E)
      as (par' & ws1 & es1 & -> & Sh1 & _).
    eapply IH; eauto. intros Q l' L. apply H. eapply leads_incl; [|exact L]. intros y Hy. right; auto.
  Qed.

  (** Children of a selection set are answered with enough fuel *)
  Definition settles (P : string) (l : list selection) : Prop :=
    exists n, forall fuel, n <= fuel -> answers (collect fuel cx) P l.

  Lemma children_bound P l :
    (forall Q l', leads (P, l) (Q, l') -> settles Q l') ->
    exists n, forall fuel, n <= fuel -> forall Q l', leads (P, l) (Q, l') -> answers (collect fuel cx) Q l'.
  Proof.
    induction l as [|x l IH]; intros H.
    - exists 0. intros fuel _ Q l' L. inversion L; subst; match goal with X : In _ [] |- _ => destruct X end.
    - destruct IH as [n Hn].
      { intros Q l' L. apply H. eapply leads_incl; [|exact L]. intros y Hy. right; auto. }
      assert (X : exists m, forall fuel, m <= fuel -> forall Q l', leads (P, [x]) (Q, l') -> answers (collect fuel cx) Q l').
      { (* one selection leads to at most one selection set *)
        assert (Sg : (exists Q l', leads (P, [x]) (Q, l')) \/ forall Q l', ~ leads (P, [x]) (Q, l')).
        { destruct x as [p al n0 a d sub|p n0 d|p c d sub].
          - destruct (match get_type s P with
                      | Some t => match st_def t with
                                  | TObject fs | TInterface _ fs _ | TUnion _ _ fs => aget n0 fs
                                  | _ => None end
                      | None => None end) as [f|] eqn:E.
            + assert (F : field_of s P n0 f).
              { destruct (get_type s P) as [t|] eqn:G; [|discriminate]. exists t. split; auto.
                destruct (st_def t); try discriminate; auto. }
              destruct (fdef_is_complex (ft_def (sf_type f))) eqn:D.
              * apply (complex_composite cx cons_ok P n0 f F) in D. destruct sub as [|y sub].
                -- right. intros Q l' L. inversion L; subst; match goal with X : In _ [_] |- _ => destruct X as [X|[]]; inversion X; subst end. congruence.
                -- left. eexists _, _. eapply le_field; eauto; [left; reflexivity|discriminate].
              * right. intros Q l' L. inversion L; subst; match goal with X : In _ [_] |- _ => destruct X as [X|[]]; inversion X; subst end.
                same_field. match goal with X : composite s (ft_name (sf_type ?g)), Y : field_of s P ?m ?g |- _ => apply (complex_composite cx cons_ok P m g Y) in X end. congruence.
            + right. intros Q l' L. inversion L; subst; match goal with X : In _ [_] |- _ => destruct X as [X|[]]; inversion X; subst end.
              match goal with F : field_of s P _ _ |- _ => apply lookup_field in F; congruence end.
          - destruct (aget n0 frags) as [fd|] eqn:E.
            + destruct (new_ctrav s (fr_cond fd) p) as [b|e] eqn:En.
              * left. eexists _, _. eapply le_spread; eauto; [left; reflexivity|]. eapply (new_ctrav_inv cx); eauto.
              * right. apply new_ctrav_err in En. intros Q l' L. inversion L; subst; match goal with X : In _ [_] |- _ => destruct X as [X|[]]; inversion X; subst end.
                destruct En as [En _]. apply En. congruence.
            + right. intros Q l' L. inversion L; subst; match goal with X : In _ [_] |- _ => destruct X as [X|[]]; inversion X; subst end. congruence.
          - destruct c as [c|].
            + destruct (new_ctrav s c p) as [b|e] eqn:En.
              * left. eexists _, _. eapply le_inline; eauto; [left; reflexivity|]. eapply (new_ctrav_inv cx); eauto.
              * right. apply new_ctrav_err in En. intros Q l' L. inversion L; subst; match goal with X : In _ [_] |- _ => destruct X as [X|[]]; inversion X; subst end.
                destruct En as [En _]. contradiction.
            + right. intros Q l' L. inversion L; subst; match goal with X : In _ [_] |- _ => destruct X as [X|[]]; inversion X; subst end. }
        destruct Sg as [(Q & l' & L)|No].
        - destruct (H Q l') as [m Hm].
          { eapply leads_incl; [|exact L]. intros y [<-|[]]. left; auto. }
          exists m. intros fuel Hf Q2 l2 L2.
          assert ((Q2, l2) = (Q, l')) as Eq.
          { inversion L; subst; inversion L2; subst;
              repeat match goal with X : In _ [_] |- _ => destruct X as [X|[]]; inversion X; subst; clear X end;
              same_field; auto. }
          inversion Eq; subst. auto.
        - exists 0. intros fuel _ Q l' L. exfalso. eapply No; eauto. }
      destruct X as [m Hm]. exists (n + m). intros fuel Hf Q l' L.
      assert (Lx : leads (P, [x]) (Q, l') \/ leads (P, l) (Q, l')).
      { inversion L; subst; match goal with X : In _ (_ :: _) |- _ => destruct X as [X|X]; [left|right] end;
          try subst x; [eapply le_field|eapply le_field|eapply le_inline|eapply le_inline|eapply le_spread|eapply le_spread];
          eauto; left; reflexivity. }
      destruct Lx as [Lx|Lx]; [eapply Hm|eapply Hn]; eauto; lia.
  Qed.

  Lemma acc_settles x : Acc below x -> settles (fst x) (snd x).
  Proof.
    induction 1 as [[P l] _ IH]. cbn [fst snd].
    destruct (children_bound P l) as [n Hn].
    { intros Q l' L. apply (IH (Q, l') L). }
    exists (S n). intros fuel Hf pth keys par js Sh. destruct fuel as [|fuel]; [lia|]. rewrite collect_S.
    eapply loop_total; eauto.
    - apply collect_run; auto.
    - intros Q l' L. eapply Hn; eauto. lia.
  Qed.

  Lemma loop_children rec l : rec_ok cx rec -> forall pth i P keys par js ws es r,
    shaped_ct s P keys par -> collect_loop rec cx pth i l par js ws es = Some r ->
    forall Q l', leads (P, l) (Q, l') -> exists pth' keys' par' js' r',
      shaped_ct s Q keys' par' /\ rec pth' l' par' js' = Some r'.
  Proof.
    intros R. induction l as [|x l IH]; intros pth i P keys par js ws es r Sh E Q l' L.
    - inversion L; subst; match goal with X : In _ [] |- _ => destruct X end.
    - rewrite collect_loop_cons in E.
      destruct (sel_step rec cx pth i x par js) as [r1|] eqn:Es; [|discriminate].
      destruct (sel_step_run cx o_ok cons_ok _ _ _ _ P (fun T => In T keys) _ _ _ _ R Sh (fun T => iff_refl _) Es)
        as (par' & ws1 & es1 & -> & Sh1 & _).
      assert (Lx : leads (P, [x]) (Q, l') \/ leads (P, l) (Q, l')).
      { inversion L; subst; match goal with X : In _ (_ :: _) |- _ => destruct X as [X|X]; [left|right] end;
          try subst x; [eapply le_field|eapply le_field|eapply le_inline|eapply le_inline|eapply le_spread|eapply le_spread];
          eauto; left; reflexivity. }
      destruct Lx as [Lx|Lx]; [|eapply IH; eauto].
      clear E IH L. pose proof Sh as [A B N Kk Rr].
      inversion Lx as [? ? p al n a d f sub I F C Ns|? ? p c d sub I C|? ? p n d fd I G C]; subst Q l'; destruct I as [I|[]]; subst x; cbn [sel_step] in Es.
      + unfold insert_field in Es. apply (field_of_lookup s P _ n f B) in F as Gf. rewrite Gf in Es.
        apply (complex_composite cx cons_ok P n f F) in C as D. rewrite D in Es.
        destruct sub as [|y sub]; [congruence|].
        destruct (new_ctrav_ok cx _ p C) as (subp & En & _). rewrite En in Es.
        destruct (sh_new s o _ _ _ En) as (_ & Shs & Kp).
        destruct (rec (2 :: i :: pth) (y :: sub) subp js) as [r'|] eqn:Er; [|discriminate].
        eexists _, _, _, _, _. eauto.
      + unfold spread_into in Es.
        destruct (clone_for_type_spread cx _ par c p _) as [[subp w0]|e] eqn:Ec.
        2: { apply clone_err, new_ctrav_err in Ec. destruct Ec; contradiction. }
        destruct (sh_clone _ _ _ _ _ _ _ _ _ _ Ec Sh) as (_ & Shs & Kc & Ew).
        destruct (rec _ sub subp _) as [r'|] eqn:Er; [|discriminate].
        eexists _, _, _, _, _. eauto.
      + rewrite G in Es. unfold spread_into in Es.
        destruct (clone_for_type_spread cx _ par (fr_cond fd) p _) as [[subp w0]|e] eqn:Ec.
        2: { apply clone_err, new_ctrav_err in Ec. destruct Ec; contradiction. }
        destruct (sh_clone _ _ _ _ _ _ _ _ _ _ Ec Sh) as (_ & Shs & Kc & Ew).
        destruct (rec _ (fr_sels fd) subp _) as [r'|] eqn:Er; [|discriminate].
        eexists _, _, _, _, _. eauto.
  Qed.

  Lemma answer_acc fuel : forall pth l P keys par js r,
    shaped_ct s P keys par -> collect fuel cx pth l par js = Some r -> Acc below (P, l).
  Proof.
    induction fuel as [|fuel IH]; intros pth l P keys par js r Sh E; [discriminate|].
    rewrite collect_S in E. constructor. intros [Q l'] L.
    destruct (loop_children _ l (collect_run cx o_ok cons_ok fuel) _ _ _ _ _ _ _ _ _ Sh E Q l' L)
      as (pth' & keys' & par' & js' & r' & Sh' & E'). eapply IH; eauto.
  Qed.
End Term.

(** *** Acyclic spreads *)
Section Acyclic.
  Variable s : schema.
  Variable frags : amap string fragdef.

  Fixpoint sel_size (x : selection) : nat :=
    match x with
    | SField _ _ _ _ _ sub | SInline _ _ _ sub => S (list_sum (List.map sel_size sub))
    | SSpread _ _ _ => 1
    end.
  Definition sels_size (l : list selection) : nat := list_sum (List.map sel_size l).
  Lemma in_size x l : In x l -> sel_size x <= sels_size l.
  Proof.
    induction l as [|y l IH]; intros I; [destruct I|].
    change (sels_size (y :: l)) with (sel_size y + sels_size l). destruct I as [->|I]; [lia|].
    specialize (IH I). lia.
  Qed.

  Definition below' (b a : string * list selection) : Prop := leads s frags a b.
  Lemma spreads_acc : forall n l, sels_size l <= n ->
    (forall m fd, spreads l m -> aget m frags = Some fd -> Acc below' (fr_cond fd, fr_sels fd)) ->
    forall P, Acc below' (P, l).
  Proof.
    induction n as [|n IH]; intros l Hs H P; constructor; intros [Q l'] L.
    - inversion L as [? ? p al m a d f sub I|? ? p c d sub I|? ? p m d fd I G C]; subst Q l'.
      + apply in_size in I. cbn [sel_size] in I. lia.
      + apply in_size in I. cbn [sel_size] in I. lia.
      + eapply H; eauto. eapply spr_here; eauto.
    - inversion L as [? ? p al m a d f sub I|? ? p c d sub I|? ? p m d fd I G C]; subst Q l'.
      + apply IH.
        * apply in_size in I. cbn [sel_size] in I. change (list_sum (List.map sel_size sub)) with (sels_size sub) in I. lia.
        * intros m' fd Sp G. eapply H; eauto. eapply spr_field; eauto.
      + apply IH.
        * apply in_size in I. cbn [sel_size] in I. change (list_sum (List.map sel_size sub)) with (sels_size sub) in I. lia.
        * intros m' fd Sp G. eapply H; eauto. eapply spr_inline; eauto.
      + eapply H; eauto. eapply spr_here; eauto.
  Qed.

  Definition spread_below (b a : string) : Prop := frag_spreads frags a b.
  Lemma acyclic_acc l P : (forall m, spreads l m -> Acc spread_below m) -> Acc below' (P, l).
  Proof.
    intros H.
    assert (X : forall m, Acc spread_below m -> forall fd, aget m frags = Some fd -> Acc below' (fr_cond fd, fr_sels fd)).
    { induction 1 as [m _ IH]. intros fd G. eapply spreads_acc; [apply le_n|].
      intros m' fd' Sp G'. apply (IH m'); auto. exists fd. auto. }
    eapply spreads_acc; [apply le_n|]. intros m fd Sp G. apply (X m); auto.
  Qed.
End Acyclic.
