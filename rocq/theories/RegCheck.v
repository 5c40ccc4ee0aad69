(** Sound checkers for the conditions of [SpecReg] and for validity, used to show that concrete
    documents meet the hypotheses of theorems. *)
From Verif Require Export SpecReg SelWorlds.

Definition possibles (s : schema) (c : string) : list string :=
  match get_type s c with
  | Some t => match st_def t with TObject _ => [c] | TInterface _ _ ps | TUnion _ ps _ => ps | _ => [] end
  | None => []
  end.
Lemma possibles_ok s c T : In T (possibles s c) <-> possible s c T.
Proof.
  unfold possibles, possible. destruct (get_type s c) as [t|]; [|split; [intros []|intros (t & E & _); discriminate]].
  split.
  - intros I. exists t. split; auto. destruct (st_def t); try contradiction; auto. destruct I as [<-|[]]; auto.
  - intros (t' & E & H). injection E as <-. destruct (st_def t); try contradiction; auto. subst. left; auto.
Qed.
Definition field_get (s : schema) (c n : string) : option sfield :=
  match get_type s c with
  | Some t => match st_def t with TObject fs | TInterface _ fs _ | TUnion _ _ fs => aget n fs | _ => None end
  | None => None
  end.
Lemma field_get_ok s c n f : field_get s c n = Some f <-> field_of s c n f.
Proof.
  unfold field_get, field_of. destruct (get_type s c) as [t|]; [|split; [discriminate|intros (t & E & _); discriminate]].
  split.
  - intros H. exists t. split; auto. destruct (st_def t); auto; discriminate.
  - intros (t' & E & H). injection E as <-. destruct (st_def t); auto; contradiction.
Qed.
Definition mems (x : string) (l : list string) : bool := existsb (String.eqb x) l.
Lemma mems_ok x l : mems x l = true <-> In x l.
Proof.
  unfold mems. rewrite existsb_exists. split.
  - intros (y & I & E). apply String.eqb_eq in E. congruence.
  - intros I. exists x. split; auto. apply String.eqb_refl.
Qed.

Definition ftype_dec (a b : ftype) : {a = b} + {a <> b}.
Proof. repeat decide equality. Defined.
Definition type_eqb (f f' : sfield) : bool := if ftype_dec (sf_type f) (sf_type f') then true else false.
Lemma type_eqb_ok f f' : type_eqb f f' = true <-> same_type f f'.
Proof. unfold type_eqb, same_type. destruct (ftype_dec _ _); split; congruence. Qed.

Definition occurrence : Type := (string * sfield * list selection)%type.

Section Check.
  Variable s : schema.
  Variable frags : amap string fragdef.

  (** Occurrences, in order; [None] = out of fuel *)
  Fixpoint occs (n : nat) (T P : string) (l : list selection) : option (list occurrence) :=
    match n with
    | O => None
    | S n' =>
        (fix go (l : list selection) : option (list occurrence) :=
           match l with
           | [] => Some []
           | x :: l' =>
               let here := match x with
                           | SField _ al nm _ _ sub =>
                               Some (match field_get s P nm with Some f => [(response_key al nm, f, sub)] | None => [] end)
                           | SInline _ (Some c) _ sub => if mems T (possibles s c) then occs n' T c sub else Some []
                           | SInline _ None _ _ => Some []
                           | SSpread _ nm _ =>
                               match aget nm frags with
                               | Some fd => if mems T (possibles s (fr_cond fd)) then occs n' T (fr_cond fd) (fr_sels fd) else Some []
                               | None => Some []
                               end
                           end in
               match here, go l' with Some a, Some b => Some (a ++ b) | _, _ => None end
           end) l
    end.

  Lemma occ_ext T P (M M' : selset) k P' n ss : (forall x, M x <-> M' x) -> occ s frags T P M k P' n ss -> occ s frags T P M' k P' n ss.
  Proof. intros H O. destruct O; [eapply occ_field|eapply occ_inline|eapply occ_spread]; eauto; apply H; eauto. Qed.
  Lemma focc_ext T P (M M' : selset) k f ss : (forall x, M x <-> M' x) -> focc s frags T P M k f ss -> focc s frags T P M' k f ss.
  Proof. intros H (P' & n & O & F). exists P', n. split; auto. eapply occ_ext; eauto. Qed.
  Lemma focc_cons T P x l k f ss : focc s frags T P (fun y => In y (x :: l)) k f ss <->
    focc s frags T P (fun y => y = x) k f ss \/ focc s frags T P (fun y => In y l) k f ss.
  Proof.
    split.
    - intros (P' & n & O & F). inversion O; subst;
        match goal with I : In _ (x :: l) |- _ => destruct I as [E|I] end;
        [left|right|left|right|left|right]; exists P', n; split; auto;
        first [solve [eapply occ_field; cbn; eauto]|solve [eapply occ_spread; cbn; eauto]|solve [eapply occ_inline; cbn; eauto]].
    - intros [H|H]; destruct H as (P' & n & O & F); exists P', n; (split; auto);
        inversion O; subst; first [solve [eapply occ_field; cbn; eauto]|solve [eapply occ_spread; cbn; eauto]|solve [eapply occ_inline; cbn; eauto]].
  Qed.
  Lemma focc_nil T P k f ss : ~ focc s frags T P (fun y => In y []) k f ss.
  Proof. intros (P' & n & O & _). inversion O; subst; contradiction. Qed.

  Lemma occs_ok n : forall T P l os, occs n T P l = Some os ->
    forall k f ss, In (k, f, ss) os <-> focc s frags T P (fun x => In x l) k f ss.
  Proof.
    induction n as [|n IH]; intros T P l; [discriminate|]. cbn [occs].
    induction l as [|x l IHl]; intros os.
    { intros E. injection E as <-. intros k f ss. split; [intros []|apply focc_nil]. }
    match goal with |- context [match ?h with Some a => match ?g with _ => _ end | None => None end] => destruct h as [a|] eqn:Eh; [destruct g as [b|] eqn:Eg|] end; try discriminate.
    intros E. injection E as <-. intros k f ss. rewrite in_app_iff, focc_cons, (IHl b eq_refl k f ss).
    enough (X : In (k, f, ss) a <-> focc s frags T P (fun y => y = x) k f ss) by (rewrite X; reflexivity).
    clear IHl Eg b. destruct x as [p al nm ar d sub|p nm d|p [c|] d sub].
    - injection Eh as <-. destruct (field_get s P nm) as [f0|] eqn:Ef.
      + apply field_get_ok in Ef. split.
        * intros [E|[]]. injection E as <- <- <-. exists P, nm. split; auto. eapply occ_field. reflexivity.
        * intros (P' & m & O & F). inversion O as [? ? ? ? ? ? ? ? Ex| |]; subst; try discriminate. injection Ex as -> -> -> -> -> ->.
          apply field_get_ok in Ef, F. left. congruence.
      + split; [intros []|]. intros (P' & m & O & F). inversion O as [? ? ? ? ? ? ? ? Ex| |]; subst; try discriminate.
        injection Ex as -> -> -> -> -> ->. apply field_get_ok in F. congruence.
    - destruct (aget nm frags) as [fd|] eqn:Ea.
      + destruct (mems T (possibles s (fr_cond fd))) eqn:Em.
        * apply mems_ok, possibles_ok in Em. rewrite (IH _ _ _ _ Eh). split.
          -- intros (P' & m & O & F). exists P', m. split; auto. eapply occ_spread; eauto.
          -- intros (P' & m & O & F). inversion O as [| |? ? ? ? ? ? ? ? ? ? Ex Ea' Po O']; subst; try discriminate. injection Ex as -> -> ->.
             rewrite Ea in Ea'. injection Ea' as <-. exists P', m. auto.
        * injection Eh as <-. split; [intros []|]. intros (P' & m & O & F).
          inversion O as [| |? ? ? ? ? ? ? ? ? ? Ex Ea' Po O']; subst; try discriminate. injection Ex as -> -> ->.
          rewrite Ea in Ea'. injection Ea' as <-. apply possibles_ok, mems_ok in Po. congruence.
      + injection Eh as <-. split; [intros []|]. intros (P' & m & O & F).
        inversion O as [| |? ? ? ? ? ? ? ? ? ? Ex Ea' Po O']; subst; try discriminate. injection Ex as -> -> ->. congruence.
    - destruct (mems T (possibles s c)) eqn:Em.
      + apply mems_ok, possibles_ok in Em. rewrite (IH _ _ _ _ Eh). split.
        * intros (P' & m & O & F). exists P', m. split; auto. eapply occ_inline; eauto.
        * intros (P' & m & O & F). inversion O as [|? ? ? ? ? ? ? ? ? ? Ex Po O'|]; subst; try discriminate. injection Ex as -> -> -> ->.
          exists P', m. auto.
      + injection Eh as <-. split; [intros []|]. intros (P' & m & O & F).
        inversion O as [|? ? ? ? ? ? ? ? ? ? Ex Po O'|]; subst; try discriminate. injection Ex as -> -> -> ->.
        apply possibles_ok, mems_ok in Po. congruence.
    - injection Eh as <-. split; [intros []|]. intros (P' & m & O & F). inversion O; subst; discriminate.
  Qed.

  (** Sub-selections merged under a key *)
  Definition merge (os : list occurrence) (k typ : string) : list selection :=
    flat_map (fun o : occurrence => if String.eqb (fst (fst o)) k && String.eqb (ft_name (sf_type (snd (fst o)))) typ then snd o else []) os.
  Lemma merge_ok (O : occset) os k typ : (forall k f ss, In (k, f, ss) os <-> O k f ss) ->
    forall x, In x (merge os k typ) <-> merged O k typ x.
  Proof.
    intros H x. unfold merge, merged. rewrite in_flat_map. split.
    - intros ([[k' f] ss] & I & J). cbn [fst snd] in J. destruct (String.eqb k' k && _) eqn:E; [|destruct J].
      apply andb_true_iff in E. destruct E as [E E']. apply String.eqb_eq in E, E'. subst k'. exists f, ss. split; [apply H; auto|auto].
    - intros (f & ss & F & E & J). exists (k, f, ss). split; [apply H; auto|]. cbn [fst snd]. rewrite String.eqb_refl, E, String.eqb_refl. exact J.
  Qed.

  Definition all_occs (n : nat) (P : string) (l : list selection) : option (list (string * list occurrence)) :=
    fold_right (fun T r => match occs n T P l, r with Some os, Some r => Some ((T, os) :: r) | _, _ => None end)
               (Some []) (possibles s P).
  Lemma all_occs_ok n P l r : all_occs n P l = Some r ->
    (forall T, possible s P T -> exists os, In (T, os) r) /\
    (forall T os, In (T, os) r -> possible s P T /\ forall k f ss, In (k, f, ss) os <-> focc s frags T P (fun x => In x l) k f ss).
  Proof.
    unfold all_occs. intros H.
    assert (X : (forall T, In T (possibles s P) -> exists os, In (T, os) r) /\
      (forall T os, In (T, os) r -> In T (possibles s P) /\ forall k f ss, In (k, f, ss) os <-> focc s frags T P (fun x => In x l) k f ss)).
    { revert r H. induction (possibles s P) as [|T Ts IH]; intros r; cbn [fold_right].
      - intros H. injection H as <-. split; [intros T []|intros T os []].
      - destruct (occs n T P l) as [os|] eqn:E; [|discriminate].
        destruct (fold_right _ _ Ts) as [r'|]; [|discriminate]. intros H. injection H as <-. destruct (IH _ eq_refl) as [A B]. split.
        + intros T' [<-|I]; [exists os; left; auto|]. destruct (A _ I) as (os' & J). exists os'. right; auto.
        + intros T' os' [E'|I].
          * injection E' as <- <-. split; [left; auto|]. eapply occs_ok; eauto.
          * destruct (B _ _ I). split; [right; auto|auto]. }
    destruct X as [A B]. split; [intros T Po; apply A, possibles_ok, Po|]. intros T os I. destruct (B T os I) as [J K]. split; auto. apply possibles_ok; auto.
  Qed.

  Definition keyb (os : list occurrence) (k : string) : bool := existsb (fun o => String.eqb (fst (fst o)) k) os.
  Lemma keyb_ok T P l os k : (forall k f ss, In (k, f, ss) os <-> focc s frags T P (fun x => In x l) k f ss) ->
    keyb os k = true <-> key s frags P (fun x => In x l) T k.
  Proof.
    intros H. unfold keyb, key. rewrite existsb_exists. split.
    - intros ([[k' f] ss] & I & E). apply String.eqb_eq in E. cbn in E. subst. exists f, ss. apply H; auto.
    - intros (f & ss & F). exists (k, f, ss). split; [apply H; auto|apply String.eqb_refl].
  Qed.

  Definition compositeb' (f : sfield) : bool := compositeb s (ft_name (sf_type f)).

  Section Alike.
    Variable R : sfield -> sfield -> Prop.
    Variable Rb : sfield -> sfield -> bool.
    Hypothesis Rb_ok : forall f f', Rb f f' = true -> R f f'.
    Fixpoint alikeb (n : nat) (P : string) (l l' : list selection) : bool :=
      match n with
      | O => false
      | S n' =>
          forallb (fun T =>
            match occs n T P l, occs n T P l' with
            | Some os, Some os' =>
                forallb (fun o => existsb (fun o' => String.eqb (fst (fst o')) (fst (fst o)) && Rb (snd (fst o)) (snd (fst o'))) os') os &&
                forallb (fun o' => existsb (fun o => String.eqb (fst (fst o')) (fst (fst o)) && Rb (snd (fst o)) (snd (fst o'))) os) os' &&
                forallb (fun o : occurrence => negb (compositeb' (snd (fst o))) ||
                   alikeb n' (ft_name (sf_type (snd (fst o)))) (merge os (fst (fst o)) (ft_name (sf_type (snd (fst o)))))
                          (merge os' (fst (fst o)) (ft_name (sf_type (snd (fst o)))))) os
            | _, _ => false
            end) (possibles s P)
      end.

    Lemma alikeb_ok n : forall P l l' (M M' : selset), alikeb n P l l' = true ->
      (forall x, M x <-> In x l) -> (forall x, M' x <-> In x l') -> alike s frags R P M M'.
    Proof.
      induction n as [|n IH]; intros P l l' M M' H HM HM'; [discriminate|]. cbn [alikeb] in H. rewrite forallb_forall in H.
      assert (X : forall T, possible s P T -> exists os os',
        (forall k f ss, In (k, f, ss) os <-> focc s frags T P M k f ss) /\
        (forall k f ss, In (k, f, ss) os' <-> focc s frags T P M' k f ss) /\
        forallb (fun o => existsb (fun o' => String.eqb (fst (fst o')) (fst (fst o)) && Rb (snd (fst o)) (snd (fst o'))) os') os = true /\
        forallb (fun o' => existsb (fun o => String.eqb (fst (fst o')) (fst (fst o)) && Rb (snd (fst o)) (snd (fst o'))) os) os' = true /\
        forallb (fun o : occurrence => negb (compositeb' (snd (fst o))) ||
                   alikeb n (ft_name (sf_type (snd (fst o)))) (merge os (fst (fst o)) (ft_name (sf_type (snd (fst o)))))
                          (merge os' (fst (fst o)) (ft_name (sf_type (snd (fst o)))))) os = true).
      { intros T Po. apply possibles_ok in Po. specialize (H T Po).
        destruct (occs (S n) T P l) as [os|] eqn:E; [|discriminate]. destruct (occs (S n) T P l') as [os'|] eqn:E'; [|discriminate].
        rewrite !andb_true_iff in H. destruct H as [[H1 H2] H3]. exists os, os'. split; [|split; [|auto]].
        - intros k f ss. rewrite (occs_ok _ _ _ _ _ E). split; apply focc_ext; intros x; rewrite HM; tauto.
        - intros k f ss. rewrite (occs_ok _ _ _ _ _ E'). split; apply focc_ext; intros x; rewrite HM'; tauto. }
      constructor.
      - intros T k f ss Po F. destruct (X T Po) as (os & os' & A & B & C1 & _). rewrite forallb_forall in C1.
        apply A in F. specialize (C1 _ F). apply existsb_exists in C1. destruct C1 as ([[k' f'] ss'] & I & E). cbn [fst snd] in E.
        apply andb_true_iff in E. destruct E as [E E']. apply String.eqb_eq in E. subst. exists f', ss'. split; [apply B; auto|auto].
      - intros T k f' ss' Po F. destruct (X T Po) as (os & os' & A & B & _ & C1 & _). rewrite forallb_forall in C1.
        apply B in F. specialize (C1 _ F). apply existsb_exists in C1. destruct C1 as ([[k' f] ss] & I & E). cbn [fst snd] in E.
        apply andb_true_iff in E. destruct E as [E E']. apply String.eqb_eq in E. subst. exists f, ss. split; [apply A; auto|auto].
      - intros T k f ss Po F C. destruct (X T Po) as (os & os' & A & B & _ & _ & C1). rewrite forallb_forall in C1.
        apply A in F. specialize (C1 _ F). cbn [fst snd] in C1. unfold compositeb' in C1. rewrite (proj2 (compositeb_ok _ _) C) in C1. cbn in C1.
        eapply IH; [exact C1| |]; intros x; symmetry; apply merge_ok; auto.
    Qed.
  End Alike.

  Fixpoint regularb (n : nat) (P : string) (l : list selection) : bool :=
    match n with
    | O => false
    | S n' =>
        match all_occs n P l with
        | None => false
        | Some r =>
            let sharesb os := forallb (fun o : occurrence => forallb (fun x : string * list occurrence => keyb (snd x) (fst (fst o))) r) os in
            forallb (fun x : string * list occurrence =>
              forallb (fun o => forallb (fun o' : occurrence => negb (String.eqb (fst (fst o)) (fst (fst o'))) || type_eqb (snd (fst o)) (snd (fst o'))) (snd x)) (snd x) &&
              forallb (fun o : occurrence => negb (compositeb' (snd (fst o))) ||
                 regularb n' (ft_name (sf_type (snd (fst o)))) (merge (snd x) (fst (fst o)) (ft_name (sf_type (snd (fst o)))))) (snd x) &&
              (negb (sharesb (snd x)) ||
               forallb (fun x' : string * list occurrence => negb (sharesb (snd x')) ||
                 forallb (fun o => forallb (fun o' : occurrence => negb (String.eqb (fst (fst o)) (fst (fst o'))) ||
                   type_eqb (snd (fst o)) (snd (fst o')) &&
                   (negb (compositeb' (snd (fst o))) ||
                    alikeb type_eqb n (ft_name (sf_type (snd (fst o)))) (merge (snd x) (fst (fst o)) (ft_name (sf_type (snd (fst o)))))
                      (merge (snd x') (fst (fst o)) (ft_name (sf_type (snd (fst o))))))) (snd x')) (snd x)) r)) r
        end
    end.

  Lemma regularb_ok n : forall P l (M : selset), regularb n P l = true -> (forall x, M x <-> In x l) -> regular s frags P M.
  Proof.
    induction n as [|n IH]; intros P l M H HM; [discriminate|]. cbn [regularb] in H.
    destruct (all_occs (S n) P l) as [r|] eqn:Er; [|discriminate]. cbn zeta in H.
    destruct (all_occs_ok _ _ _ _ Er) as [A B]. rewrite forallb_forall in H.
    assert (X : forall T, possible s P T -> exists os, In (T, os) r /\ forall k f ss, In (k, f, ss) os <-> focc s frags T P M k f ss).
    { intros T Po. destruct (A T Po) as (os & I). exists os. split; auto. intros k f ss. rewrite (proj2 (B T os I)).
      split; apply focc_ext; intros x; rewrite HM; tauto. }
    assert (Sh : forall T os, In (T, os) r -> shares s frags P M T ->
      forallb (fun o : occurrence => forallb (fun x : string * list occurrence => keyb (snd x) (fst (fst o))) r) os = true).
    { intros T os I [Po S]. rewrite forallb_forall. intros [[k f] ss] J. rewrite forallb_forall. intros [T' os'] I'. cbn [fst snd].
      destruct (B _ _ I) as [_ B1], (B _ _ I') as [Po' B2]. apply (keyb_ok T' P l); [exact B2|].
      assert (K : key s frags P M T k). { exists f, ss. apply B1 in J. revert J. apply focc_ext. intros x. rewrite HM. tauto. }
      destruct (S k K T' Po') as (f' & ss' & F'). exists f', ss'. revert F'. apply focc_ext. intros x. rewrite HM. tauto. }
    constructor.
    - intros T k f ss f' ss' Po F F'. destruct (X T Po) as (os & I & Eo). specialize (H _ I). cbn [snd] in H.
      rewrite !andb_true_iff in H. destruct H as [[H _] _]. rewrite forallb_forall in H. apply Eo in F, F'.
      specialize (H _ F). rewrite forallb_forall in H. specialize (H _ F'). cbn [fst snd] in H. rewrite String.eqb_refl in H. cbn in H.
      apply type_eqb_ok. exact H.
    - intros T T' k f ss f' ss' S S' F F'. pose proof S as [Po _]. pose proof S' as [Po' _].
      destruct (X T Po) as (os & I & Eo). destruct (X T' Po') as (os' & I' & Eo'). specialize (H _ I). cbn [snd] in H.
      rewrite !andb_true_iff in H. destruct H as [_ H]. rewrite (Sh T os I S) in H. cbn [negb orb] in H. rewrite forallb_forall in H.
      specialize (H _ I'). cbn [snd] in H. rewrite (Sh T' os' I' S') in H. cbn [negb orb] in H. rewrite forallb_forall in H.
      apply Eo in F. apply Eo' in F'. specialize (H _ F). rewrite forallb_forall in H. specialize (H _ F'). cbn [fst snd] in H.
      rewrite String.eqb_refl in H. cbn [negb orb] in H. apply andb_true_iff in H. destruct H as [H1 H2]. split; [apply type_eqb_ok; exact H1|].
      intros C. unfold compositeb' in H2. rewrite (proj2 (compositeb_ok _ _) C) in H2. cbn [negb orb] in H2.
      eapply alikeb_ok; [|exact H2| |].
      + intros a b E. apply type_eqb_ok. exact E.
      + intros x. symmetry. apply merge_ok. auto.
      + intros x. symmetry. apply merge_ok. auto.
    - intros T k f ss Po F C. destruct (X T Po) as (os & I & Eo). specialize (H _ I). cbn [snd] in H.
      rewrite !andb_true_iff in H. destruct H as [[_ H] _]. rewrite forallb_forall in H. apply Eo in F.
      specialize (H _ F). cbn [fst snd] in H. unfold compositeb' in H. rewrite (proj2 (compositeb_ok _ _) C) in H. cbn [negb orb] in H.
      eapply IH; [exact H|]. intros x. symmetry. apply merge_ok. auto.
  Qed.

  (** Validity *)
  Fixpoint validb (n : nat) (P : string) (l : list selection) : bool :=
    match n with
    | O => false
    | S n' =>
        forallb (fun x => match x with
          | SField _ _ nm _ _ sub =>
              match field_get s P nm with
              | Some f => if compositeb' f then match sub with [] => false | _ => validb n' (ft_name (sf_type f)) sub end
                          else match sub with [] => true | _ => false end
              | None => false
              end
          | SInline _ (Some c) _ sub => compositeb s c && validb n' c sub
          | SInline _ None _ _ => false
          | SSpread _ nm _ => match aget nm frags with
                              | Some fd => compositeb s (fr_cond fd) && validb n' (fr_cond fd) (fr_sels fd)
                              | None => false
                              end
          end) l
    end.
  Lemma validb_ok n : forall P l, validb n P l = true -> valid_sels s frags P l.
  Proof.
    induction n as [|n IH]; intros P l; [discriminate|]. cbn [validb]. induction l as [|x l IHl]; [constructor|]. cbn [forallb].
    rewrite andb_true_iff. intros [H Hl]. constructor; [|apply IHl; exact Hl]. clear IHl Hl.
    destruct x as [p al nm ar d sub|p nm d|p [c|] d sub].
    - destruct (field_get s P nm) as [f|] eqn:E; [|discriminate]. apply field_get_ok in E. unfold compositeb' in H.
      destruct (compositeb s (ft_name (sf_type f))) eqn:C.
      + apply compositeb_ok in C. destruct sub as [|y sub]; [discriminate|]. eapply valid_composite; eauto. discriminate.
      + destruct sub; [|discriminate]. eapply valid_leaf; eauto. intros X. apply compositeb_ok in X. congruence.
    - destruct (aget nm frags) as [fd|] eqn:E; [|discriminate]. apply andb_true_iff in H. destruct H as [C V]. apply compositeb_ok in C.
      eapply valid_spread; eauto.
    - apply andb_true_iff in H. destruct H as [C V]. apply compositeb_ok in C. constructor; auto.
    - discriminate.
  Qed.
End Check.

(** No type is called $$other *)
Definition proper_typesb (s : schema) : bool :=
  forallb (fun x => negb (String.eqb (fst x) "$$other") &&
                    match st_def (snd x) with TInterface _ _ ps | TUnion _ ps _ => negb (mems "$$other" ps) | _ => true end) s.
Lemma proper_typesb_ok s : proper_typesb s = true -> forall P T, possible s P T -> T <> "$$other".
Proof.
  unfold proper_typesb. rewrite forallb_forall. intros H P T (t & E & Po) ->. apply aget_In in E. specialize (H _ E). cbn [fst snd] in H.
  apply andb_true_iff in H. destruct H as [H1 H2].
  destruct (st_def t); try contradiction; try (apply negb_true_iff in H2; apply mems_ok in Po; congruence).
  subst P. discriminate.
Qed.
