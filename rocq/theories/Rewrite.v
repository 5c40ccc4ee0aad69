(** Rewriting selections without changing what is collected. *)
From Verif Require Export FragExt RunDet DescFacts.
From Verif Require Import PropC18.

Definition same_data (f f' : sfield) : Prop :=
  sf_type f = sf_type f' /\ sf_doc f = sf_doc f' /\ sf_deprecated f = sf_deprecated f'.

Section Rewrite.
  Variable s : schema.
  Variable frags : amap string fragdef.

  (** The fields an object type has under one response key agree in type, documentation and
      deprecation, at every depth *)
  Inductive settled : string -> selset -> Prop :=
  | settled_intro P (M : selset) :
      (forall T k f ss f' ss', possible s P T -> focc s frags T P M k f ss -> focc s frags T P M k f' ss' -> same_data f f') ->
      (forall T k f ss, possible s P T -> focc s frags T P M k f ss -> composite s (ft_name (sf_type f)) ->
         settled (ft_name (sf_type f)) (merged (focc s frags T P M) k (ft_name (sf_type f)))) ->
      settled P M.

  (** One rewriting step at static type [P].  Together with [st_set] the others apply anywhere in a
      list; [st_field] and [st_inline] apply them at any depth. *)
  Inductive step : string -> list selection -> list selection -> Prop :=
  | st_set P l l' : (forall x, In x l <-> In x l') -> step P l l'
  | st_wrap P p d l r : l <> [] -> step P (l ++ r) (SInline p (Some P) d l :: r)
  | st_split P p al n a d u v p' al' a' d' r : u <> [] -> v <> [] -> response_key al n = response_key al' n ->
      step P (SField p al n a d (u ++ v) :: r) (SField p al n a d u :: SField p' al' n a' d' v :: r)
  | st_field P p al n a d u p' al' a' d' v f r : field_of s P n f -> response_key al n = response_key al' n ->
      step (ft_name (sf_type f)) u v -> step P (SField p al n a d u :: r) (SField p' al' n a' d' v :: r)
  | st_inline P p c d u p' d' v r : step c u v -> step P (SInline p (Some c) d u :: r) (SInline p' (Some c) d' v :: r)
  | st_spread P p d p' n d' fd r : aget n frags = Some fd ->
      step P (SInline p (Some (fr_cond fd)) d (fr_sels fd) :: r) (SSpread p' n d' :: r).

  (** Any number of steps, in either direction *)
  Inductive rewrites : string -> list selection -> list selection -> Prop :=
  | rw_refl P l : rewrites P l l
  | rw_step P l l' l'' : step P l l' -> rewrites P l' l'' -> rewrites P l l''
  | rw_back P l l' l'' : step P l' l -> rewrites P l' l'' -> rewrites P l l''.

  Lemma step_nonempty P l l' : step P l l' -> l <> [] -> l' <> [].
  Proof.
    induction 1; try discriminate. intros N ->. destruct l as [|x l]; [congruence|]. apply (H x). left. auto.
  Qed.
  Lemma step_nonempty' P l l' : step P l l' -> l' <> [] -> l <> [].
  Proof.
    destruct 1; try discriminate.
    - intros N ->. destruct l' as [|x l']; [congruence|]. apply (H x). left. auto.
    - intros _ E. apply app_eq_nil in E. tauto.
  Qed.

  (** *** Validity *)
  Lemma valid_all P l : valid_sels s frags P l <-> forall x, In x l -> valid_sel s frags P x.
  Proof.
    split.
    - induction l as [|y l IH]; intros V x I; [contradiction|]. inversion V; subst. destruct I as [<-|I]; auto.
    - induction l as [|y l IH]; intros V; constructor; [apply V; left; auto|apply IH; intros; apply V; right; auto].
  Qed.
  Lemma valid_app P l l' : valid_sels s frags P (l ++ l') <-> valid_sels s frags P l /\ valid_sels s frags P l'.
  Proof.
    rewrite !valid_all. split.
    - intros H. split; intros; apply H; apply in_or_app; auto.
    - intros [H H'] x I. apply in_app_or in I. destruct I; auto.
  Qed.
  Lemma valid_two P x l : valid_sels s frags P (x :: l) <-> valid_sel s frags P x /\ valid_sels s frags P l.
  Proof. split; [intros V; inversion V; auto|intros [? ?]; constructor; auto]. Qed.
  Lemma valid_field_sub P p al n a d sub f : field_of s P n f ->
    valid_sel s frags P (SField p al n a d sub) <->
    (sub = [] /\ ~ composite s (ft_name (sf_type f))) \/
    (sub <> [] /\ composite s (ft_name (sf_type f)) /\ valid_sels s frags (ft_name (sf_type f)) sub).
  Proof.
    intros F. split.
    - intros V. inversion V as [? ? ? ? ? ? f' F' C|? ? ? ? ? ? f' ? F' C N Vs| |]; subst; rewrite (field_of_fun _ _ _ _ _ F F'); auto.
    - intros [[-> C]|(N & C & Vs)]; [eapply valid_leaf; eauto|eapply valid_composite; eauto].
  Qed.
  Lemma field_in P p al n a d sub : valid_sel s frags P (SField p al n a d sub) -> exists f, field_of s P n f.
  Proof. intros V. inversion V; subst; eauto. Qed.

  Lemma step_valid P l l' : step P l l' -> composite s P -> valid_sels s frags P l <-> valid_sels s frags P l'.
  Proof.
    induction 1 as [P l l' E|P p d l r N|P p al n a d u v p' al' a' d' r Nu Nv K|P p al n a d u p' al' a' d' v f r F K St IH
      |P p c d u p' d' v r St IH|P p d p' n d' fd r A]; intros C.
    - rewrite !valid_all. split; intros H x I; apply H; apply E; auto.
    - rewrite valid_app, valid_two. split; intros [H H']; split; auto; [constructor; auto|inversion H; auto].
    - rewrite !valid_two. split.
      + intros [V Vr]. destruct (field_in _ _ _ _ _ _ _ V) as (f & F). rewrite valid_field_sub in V by eauto.
        destruct V as [[E _]|(_ & Cf & Vs)]; [apply app_eq_nil in E; tauto|]. rewrite valid_app in Vs. destruct Vs.
        rewrite !valid_field_sub by eauto. tauto.
      + intros (V & V' & Vr). destruct (field_in _ _ _ _ _ _ _ V) as (f & F). rewrite valid_field_sub in V, V' by eauto.
        rewrite valid_field_sub by eauto. destruct V as [[E _]|(_ & Cf & Vs)]; [tauto|]. destruct V' as [[E _]|(_ & _ & Vs')]; [tauto|].
        split; auto. right. split; [intros E; apply app_eq_nil in E; tauto|]. split; auto. apply valid_app. auto.
    - rewrite !valid_two, !valid_field_sub by eauto.
      pose proof (step_nonempty _ _ _ St) as N1. pose proof (step_nonempty' _ _ _ St) as N2.
      assert (N : u = [] <-> v = []).
      { split; intros ->; [destruct v|destruct u]; auto; exfalso; [apply N2|apply N1]; auto; discriminate. }
      split; intros [[[E X]|(Ne & X & V)] Vr]; (split; [|exact Vr]).
      + left. split; auto. apply N; auto.
      + right. split; [rewrite <- N; auto|]. split; auto. apply IH; auto.
      + left. split; auto. apply N; auto.
      + right. split; [rewrite N; auto|]. split; auto. apply IH; auto.
    - rewrite !valid_two. split; intros [V Vr]; (split; [|exact Vr]); inversion V as [| |? ? ? ? ? Cc Vs|]; subst; constructor; auto; apply IH; auto.
    - rewrite !valid_two. split; intros [V Vr]; (split; [|exact Vr]).
      + inversion V; subst. econstructor; eauto.
      + inversion V as [| | |? ? ? ? fd' A' Cc Vs]; subst. rewrite A in A'. injection A' as <-. constructor; auto.
  Qed.

  (** *** Collected fields *)
  Notation focc := (focc s frags).
  Definition seteq (M M' : selset) : Prop := forall x, M x <-> M' x.
  Definition oeq (O O' : occset) : Prop := forall k f ss, O k f ss <-> O' k f ss.
  Definition oor (O O' : occset) : occset := fun k f ss => O k f ss \/ O' k f ss.
  Definition sor (M M' : selset) : selset := fun x => M x \/ M' x.

  Lemma focc_or T P M M' : oeq (focc T P (sor M M')) (oor (focc T P M) (focc T P M')).
  Proof.
    intros k f ss. split.
    - intros (P' & n & X & F). inversion X as [? ? p al ? a d sub I|? ? p c d sub ? ? ? ? I Po X'|? ? p nm d fd ? ? ? ? I A Po X']; subst;
        (unfold sor in I; destruct I as [I|I]; [left|right]; eexists _, _; (split; [|exact F])).
      + eapply occ_field; eauto. + eapply occ_field; eauto.
      + eapply occ_inline; eauto. + eapply occ_inline; eauto.
      + eapply occ_spread; eauto. + eapply occ_spread; eauto.
    - intros [H|H]; (eapply focc_set; [|exact H]); intros x I; [left|right]; auto.
  Qed.
  Lemma focc_seteq T P M M' : seteq M M' -> oeq (focc T P M) (focc T P M').
  Proof. intros E k f ss. apply (focc_iff s frags frags (fun _ => eq_refl) T P M M' E). Qed.
  Lemma focc_cons T P x l : oeq (focc T P (fun y => In y (x :: l))) (oor (focc T P (fun y => y = x)) (focc T P (fun y => In y l))).
  Proof.
    intros k f ss. eapply iff_trans; [apply focc_seteq|apply focc_or].
    intros y. cbn. unfold sor. split; intros [H|H]; auto.
  Qed.
  Lemma focc_app T P l l' : oeq (focc T P (fun y => In y (l ++ l'))) (oor (focc T P (fun y => In y l)) (focc T P (fun y => In y l'))).
  Proof.
    intros k f ss. eapply iff_trans; [apply focc_seteq|apply focc_or]. intros y. rewrite in_app_iff. unfold sor. tauto.
  Qed.
  Lemma focc_one_field T P p al n a d sub : oeq (focc T P (fun y => y = SField p al n a d sub))
    (fun k f ss => k = response_key al n /\ ss = sub /\ field_of s P n f).
  Proof.
    intros k f ss. split.
    - intros (P' & m & X & F). inversion X as [? ? ? ? ? ? ? ? I|? ? ? ? ? ? ? ? ? ? I|? ? ? ? ? ? ? ? ? ? I]; subst; try discriminate.
      injection I as -> -> -> -> -> ->. auto.
    - intros (-> & -> & F). exists P, n. split; auto. eapply occ_field. reflexivity.
  Qed.
  Lemma focc_one_inline T P p c d sub : oeq (focc T P (fun y => y = SInline p (Some c) d sub))
    (fun k f ss => possible s c T /\ focc T c (fun y => In y sub) k f ss).
  Proof.
    intros k f ss. split.
    - intros (P' & m & X & F). inversion X as [? ? ? ? ? ? ? ? I|? ? ? ? ? ? ? ? ? ? I Po X'|? ? ? ? ? ? ? ? ? ? I]; subst; try discriminate.
      injection I as -> -> -> ->. split; auto. exists P', m. auto.
    - intros (Po & P' & n & X & F). exists P', n. split; auto. eapply occ_inline; eauto.
  Qed.
  Lemma focc_one_spread T P p nm d fd : aget nm frags = Some fd -> oeq (focc T P (fun y => y = SSpread p nm d))
    (fun k f ss => possible s (fr_cond fd) T /\ focc T (fr_cond fd) (fun y => In y (fr_sels fd)) k f ss).
  Proof.
    intros A k f ss. split.
    - intros (P' & m & X & F). inversion X as [? ? ? ? ? ? ? ? I|? ? ? ? ? ? ? ? ? ? I|? ? ? ? ? fd' ? ? ? ? I A' Po X']; subst; try discriminate.
      injection I as -> -> ->. rewrite A in A'. injection A' as <-. split; auto. exists P', m. auto.
    - intros (Po & P' & n & X & F). exists P', n. split; auto. eapply occ_spread; eauto.
  Qed.

  (** Sets of selections that differ by at most one step *)
  Inductive near : string -> selset -> selset -> Prop :=
  | near_same P M M' : seteq M M' -> near P M M'
  | near_step P (Y M M' : selset) u v : step P u v -> seteq M (sor Y (fun x => In x u)) -> seteq M' (sor Y (fun x => In x v)) -> near P M M'.
  Lemma near_or P M M' Y Z Z' : near P M M' -> seteq Z (sor Y M) -> seteq Z' (sor Y M') -> near P Z Z'.
  Proof.
    intros N E E'. inversion N as [? ? ? S|? X ? ? u v St S S']; subst.
    - apply near_same. intros x. rewrite (E x), (E' x). unfold sor. rewrite (S x). tauto.
    - apply (near_step P (sor Y X) Z Z' u v St); intros x; [rewrite (E x)|rewrite (E' x)]; unfold sor; [rewrite (S x)|rewrite (S' x)]; unfold sor; tauto.
  Qed.

  (** Two sets of occurrences with the same keys and fields, and sub-selections that are near *)
  Definition onear (O O' : occset) : Prop :=
    (forall k f, (exists ss, O k f ss) <-> (exists ss, O' k f ss)) /\
    (forall k t, near t (merged O k t) (merged O' k t)).
  Lemma merged_oeq O O' k t : oeq O O' -> seteq (merged O k t) (merged O' k t).
  Proof. intros E x. apply (merged_iff O O' k t E). Qed.
  Lemma merged_or O O' k t : seteq (merged (oor O O') k t) (sor (merged O k t) (merged O' k t)).
  Proof.
    intros x. unfold merged, oor, sor. split.
    - intros (f & ss & [H|H] & E); [left|right]; eauto.
    - intros [(f & ss & H & E)|(f & ss & H & E)]; eauto.
  Qed.
  Lemma onear_eq O O' : oeq O O' -> onear O O'.
  Proof.
    intros E. split.
    - intros k f. split; intros (ss & H); exists ss; apply E; auto.
    - intros k t. apply near_same. apply merged_oeq. auto.
  Qed.
  Lemma onear_or Q O O' A A' : onear O O' -> oeq A (oor Q O) -> oeq A' (oor Q O') -> onear A A'.
  Proof.
    intros [H1 H2] E E'. split.
    - intros k f. split; intros (ss & H); [apply E in H|apply E' in H]; destruct H as [H|H].
      + exists ss. apply E'. left. auto.
      + destruct (proj1 (H1 k f) (ex_intro _ ss H)) as (ss' & H'). exists ss'. apply E'. right. auto.
      + exists ss. apply E. left. auto.
      + destruct (proj2 (H1 k f) (ex_intro _ ss H)) as (ss' & H'). exists ss'. apply E. right. auto.
    - intros k t. apply (near_or t _ _ (merged Q k t) _ _ (H2 k t)); intros x.
      + rewrite (merged_oeq _ _ k t E x). apply merged_or.
      + rewrite (merged_oeq _ _ k t E' x). apply merged_or.
  Qed.
  Lemma oor_comm O O' : oeq (oor O O') (oor O' O).
  Proof. intros k f ss. unfold oor. tauto. Qed.
  Lemma oeq_trans O O' O'' : oeq O O' -> oeq O' O'' -> oeq O O''.
  Proof. intros A B k f ss. rewrite (A k f ss). apply B. Qed.
  Lemma head_near T P x y r : onear (focc T P (fun z => z = x)) (focc T P (fun z => z = y)) ->
    onear (focc T P (fun z => In z (x :: r))) (focc T P (fun z => In z (y :: r))).
  Proof.
    intros N. apply (onear_or (focc T P (fun z => In z r)) _ _ _ _ N); (eapply oeq_trans; [apply focc_cons|apply oor_comm]).
  Qed.

  Lemma step_near P l l' T : step P l l' -> possible s P T -> onear (focc T P (fun x => In x l)) (focc T P (fun x => In x l')).
  Proof.
    induction 1 as [P l l' E|P p d l r N|P p al n a d u v p' al' a' d' r Nu Nv K|P p al n a d u p' al' a' d' v f r F K St IH
      |P p c d u p' d' v r St IH|P p d p' n d' fd r A]; intros Po.
    - apply onear_eq. apply focc_seteq. exact E.
    - apply onear_eq. intros k f ss. rewrite (focc_app T P l r k f ss), (focc_cons T P _ r k f ss). unfold oor.
      rewrite (focc_one_inline T P p P d l k f ss). tauto.
    - set (k0 := response_key al n).
      assert (E1 : oeq (focc T P (fun x => In x (SField p al n a d (u ++ v) :: r)))
        (oor (focc T P (fun x => In x r)) (fun k f ss => k = k0 /\ ss = u ++ v /\ field_of s P n f))).
      { intros k f ss. rewrite (focc_cons T P _ r k f ss). unfold oor. rewrite (focc_one_field T P p al n a d (u ++ v) k f ss). tauto. }
      assert (E2 : oeq (focc T P (fun x => In x (SField p al n a d u :: SField p' al' n a' d' v :: r)))
        (oor (focc T P (fun x => In x r)) (fun k f ss => k = k0 /\ (ss = u \/ ss = v) /\ field_of s P n f))).
      { intros k f ss. rewrite (focc_cons T P _ _ k f ss). unfold oor. rewrite (focc_one_field T P p al n a d u k f ss).
        rewrite (focc_cons T P _ r k f ss). unfold oor. rewrite (focc_one_field T P p' al' n a' d' v k f ss).
        unfold k0. rewrite K. intuition. }
      apply (onear_or (focc T P (fun x => In x r)) (fun k f ss => k = k0 /\ ss = u ++ v /\ field_of s P n f) (fun k f ss => k = k0 /\ (ss = u \/ ss = v) /\ field_of s P n f) _ _); auto.
      split.
      + intros k f. split; [intros (ss & -> & _ & F); exists u|intros (ss & -> & _ & F); exists (u ++ v)]; auto.
      + intros k t. apply near_same. intros x. split.
        * intros (f & ss & (-> & -> & F) & E & I). apply in_app_or in I. destruct I as [I|I]; [exists f, u|exists f, v]; auto.
        * intros (f & ss & (-> & [->| ->] & F) & E & I); exists f, (u ++ v); (split; [|split; [auto|]]); auto; apply in_or_app; auto.
    - apply (onear_or (focc T P (fun z => In z r)) (focc T P (fun z => z = SField p al n a d u)) (focc T P (fun z => z = SField p' al' n a' d' v)) _ _);
        [|eapply oeq_trans; [apply focc_cons|apply oor_comm]|eapply oeq_trans; [apply focc_cons|apply oor_comm]].
      split.
      + intros k g. split; intros (ss & H); apply focc_one_field in H; destruct H as (-> & -> & G).
        * exists v. apply focc_one_field. rewrite K. auto.
        * exists u. apply focc_one_field. rewrite K. auto.
      + intros k t. destruct (string_dec k (response_key al n)) as [->|Nk].
        2:{ apply near_same. intros x. split; intros (g & ss & H & _); apply focc_one_field in H; destruct H as (E & _); exfalso; apply Nk; congruence. }
        destruct (string_dec (ft_name (sf_type f)) t) as [<-|Nt].
        * apply (near_step _ (fun _ => False) _ _ u v St); intros x; split.
          -- intros (g & ss & H & E & I). apply focc_one_field in H. destruct H as (_ & -> & G). right. auto.
          -- intros [[]|I]. exists f, u. split; auto. apply focc_one_field. auto.
          -- intros (g & ss & H & E & I). apply focc_one_field in H. destruct H as (_ & -> & G). right. auto.
          -- intros [[]|I]. exists f, v. split; auto. apply focc_one_field. rewrite <- K. auto.
        * apply near_same. intros x. split; intros (g & ss & H & E & _); apply focc_one_field in H; destruct H as (_ & _ & G);
            rewrite (field_of_fun _ _ _ _ _ F G) in Nt; contradiction.
    - apply head_near.
      assert (D : possible s c T \/ ~ possible s c T).
      { unfold possible. destruct (get_type s c) as [t|]; [|right; intros (? & ? & _); discriminate].
        assert (X : match st_def t with TObject _ => T = c | TInterface _ _ ps | TUnion _ ps _ => In T ps | _ => False end \/
                  ~ match st_def t with TObject _ => T = c | TInterface _ _ ps | TUnion _ ps _ => In T ps | _ => False end).
        { destruct (st_def t); auto; first [destruct (string_dec T c); auto; fail|match goal with |- In T ?l \/ _ => destruct (in_dec string_dec T l); auto end]. }
        destruct X as [X|X]; [left; eauto|right]. intros (t' & E & Y). injection E as <-. auto. }
      destruct D as [D|D].
      + specialize (IH D). apply (onear_or (fun _ _ _ => False) _ _ _ _ IH); intros k f ss;
          rewrite (focc_one_inline T P _ c _ _ k f ss); unfold oor; tauto.
      + apply onear_eq. intros k f ss. rewrite (focc_one_inline T P p c d u k f ss), (focc_one_inline T P p' c d' v k f ss). tauto.
    - apply head_near. apply onear_eq. intros k f ss. rewrite (focc_one_inline T P p _ d _ k f ss), (focc_one_spread T P p' n d' fd A k f ss). tauto.
  Qed.

  Lemma near_occ P M M' T : near P M M' -> possible s P T -> onear (focc T P M) (focc T P M').
  Proof.
    intros N Po. inversion N as [? ? ? E|? Y ? ? u v St E E']; subst.
    - apply onear_eq. apply focc_seteq. auto.
    - apply (onear_or (focc T P Y) _ _ _ _ (step_near _ _ _ _ St Po)); (eapply oeq_trans; [apply focc_seteq; eassumption|apply focc_or]).
  Qed.

  Lemma near_alike P M : settled P M -> forall M', near P M M' -> alike s frags eq P M M' /\ settled P M'.
  Proof.
    induction 1 as [P M H1 _ IH]. intros M' N. split; constructor.
    - intros T k f ss Po F. destruct (near_occ _ _ _ _ N Po) as [A _]. destruct (proj1 (A k f) (ex_intro _ ss F)) as (ss' & F'). eauto.
    - intros T k f ss Po F. destruct (near_occ _ _ _ _ N Po) as [A _]. destruct (proj2 (A k f) (ex_intro _ ss F)) as (ss' & F'). eauto.
    - intros T k f ss Po F C. destruct (near_occ _ _ _ _ N Po) as [_ B]. eapply IH; eauto.
    - intros T k f ss f' ss' Po F F'. destruct (near_occ _ _ _ _ N Po) as [A _].
      destruct (proj2 (A k f) (ex_intro _ ss F)) as (? & ?). destruct (proj2 (A k f') (ex_intro _ ss' F')) as (? & ?). eauto.
    - intros T k f ss Po F C. destruct (near_occ _ _ _ _ N Po) as [A B]. destruct (proj2 (A k f) (ex_intro _ ss F)) as (ss' & F'). eapply IH; eauto.
  Qed.
  Lemma near_sym P M M' : near P M M' -> near P M' M \/ exists Y u v, step P u v /\ seteq M (sor Y (fun x => In x u)) /\ seteq M' (sor Y (fun x => In x v)).
  Proof.
    intros N. inversion N as [? ? ? E|? Y ? ? u v St E E']; subst; [left; apply near_same; intros x; rewrite (E x); tauto|right; eauto 8].
  Qed.

  (** *** Collected fields determine the intermediate representation *)
  Hypothesis cons_ok : consistent s.
  Section Det.
    Variable R : sfield -> sfield -> Prop.
    Hypothesis R_data : forall f f', R f f' -> same_data f f'.

    Lemma same_trans f g h : same_data f g -> same_data g h -> same_data f h.
    Proof. intros (A & B & C) (A' & B' & C'). repeat split; congruence. Qed.
    Lemma same_sym f g : same_data f g -> same_data g f.
    Proof. intros (A & B & C). repeat split; congruence. Qed.
    Lemma perm_of {A} (l l' : list A) : NoDup l -> NoDup l' -> (forall x, In x l -> In x l') -> (forall x, In x l' -> In x l) -> Permutation l l'.
    Proof. intros N N' I I'. apply NoDup_Permutation; auto. intros x. split; auto. Qed.
    Lemma keys_once T P M es : (forall k f ss f' ss', focc T P M k f ss -> focc T P M k f' ss' -> same_data f f') ->
      NoDup (List.map (fun e : string * sfield * irtype => (fst (fst e), ft_name (sf_type (snd (fst e))))) es) ->
      (forall k f t, In (k, f, t) es -> exists ss, focc T P M k f ss) -> NoDup (List.map irf_prop (List.map mk_irfield es)).
    Proof.
      intros A N F. rewrite props_of_entries. induction es as [|[[k f] t] es IH]; [constructor|]. cbn [List.map fst snd] in *. inversion N as [|? ? N1 N2]; subst.
      constructor; [|apply IH; auto; intros; eapply F; right; eauto].
      intros I. apply N1. apply in_map_iff in I. destruct I as ([[k' f'] t'] & E & I). cbn [fst snd] in E. subst k'.
      apply in_map_iff. exists (k, f', t'). split; auto. cbn [fst snd]. f_equal.
      destruct (F k f t) as (ss & X); [left; auto|]. destruct (F k f' t') as (ss' & X'); [right; auto|].
      destruct (A _ _ _ _ _ X X') as (E & _). congruence.
    Qed.
    Lemma mk_sorted es : sorted_by (fun e : string * sfield * irtype => fst (fst e)) es -> sorted_by irf_prop (List.map mk_irfield es).
    Proof.
      unfold sorted_by. induction 1 as [|[[k f] t] es S IH F]; cbn [List.map]; constructor; auto. rewrite Forall_map.
      eapply Forall_impl; [|exact F]. intros [[k' f'] t'] L. exact L.
    Qed.
    Lemma nodup_names {A} (g : A -> string) l : NoDup (List.map g l) -> NoDup l.
    Proof. apply NoDup_map_inv. Qed.

    Lemma coll_det P M M' : alike s frags R P M M' -> settled P M -> forall cs cs',
      coll_ok s frags P M cs -> coll_ok s frags P M' cs' -> cs = cs'.
    Proof.
      induction 1 as [P M M' A1 A2 _ IH]. intros St. inversion St as [P0 M0 S1 S2]; subst.
      intros cs cs' C C'. inversion C as [? ? ? So Nd Ps Fs]; subst. inversion C' as [? ? ? So' Nd' Ps' Fs']; subst.
      assert (Data : forall T k f ss f' ss', possible s P T -> focc T P M k f ss -> focc T P M' k f' ss' -> same_data f f').
      { intros T k f ss f' ss' Po F F'. destruct (A2 _ _ _ _ Po F') as (g & sg & G & Rg). eapply same_trans; [|apply R_data; exact Rg]. eauto. }
      assert (Uniq' : forall T k f ss f' ss', possible s P T -> focc T P M' k f ss -> focc T P M' k f' ss' -> same_data f f').
      { intros T k f ss f' ss' Po F F'. destruct (A2 _ _ _ _ Po F) as (g & sg & G & Rg). eapply same_trans; [apply same_sym, R_data; exact Rg|eauto]. }
      (* one entry *)
      assert (Ent : forall T k f t f' t', possible s P T -> (exists ss, focc T P M k f ss) -> (exists ss, focc T P M' k f' ss) ->
        ty_ok s frags f (merged (focc T P M) k (ft_name (sf_type f))) t -> ty_ok s frags f' (merged (focc T P M') k (ft_name (sf_type f'))) t' ->
        mk_irfield (k, f, t) = mk_irfield (k, f', t')).
      { intros T k f t f' t' Po (ss & F) (ss' & F') Ty Ty'. destruct (Data _ _ _ _ _ _ Po F F') as (Et & Ed & Ep).
        assert (t = t') as ->. 2:{ cbn. rewrite Et, Ed, Ep. reflexivity. }
        rewrite <- Et in Ty'.
        inversion Ty as [? ? D|? ? sc D|? ? D|? ? cs1 D Ck]; subst; inversion Ty' as [? ? D'|? ? sc' D'|? ? D'|? ? cs2 D' Ck']; subst; rewrite <- Et in D';
          try rewrite D in D'; try discriminate; try (rewrite D' in D; discriminate); try congruence.
        f_equal. rewrite <- Et in Ck'. assert (Cm : composite s (ft_name (sf_type f))).
        { destruct F as (P' & n & _ & F). apply kind_composite; auto. eapply cons_ok; eauto. }
        eapply IH; eauto. }
      (* the fields of one object type *)
      assert (Fl : forall T fs fs', possible s P T -> fields_ok s frags (focc T P M) fs -> fields_ok s frags (focc T P M') fs' -> fs = fs').
      { intros T fs fs' Po F F'. inversion F as [O es Sd N Fo Ty Cv EO Ef]. inversion F' as [O' es' Sd' N' Fo' Ty' Cv' EO' Ef'].
        assert (N1 : NoDup (List.map irf_prop (List.map mk_irfield es))) by (eapply (keys_once T P M); eauto).
        assert (N1' : NoDup (List.map irf_prop (List.map mk_irfield es'))) by (eapply (keys_once T P M'); eauto).
        apply (sorted_perm_eq irf_prop); [exact (mk_sorted _ Sd)|exact (mk_sorted _ Sd')|exact N1|].
        apply perm_of; [exact (nodup_names _ _ N1)|exact (nodup_names _ _ N1')| |]; intros y I; apply in_map_iff in I; destruct I as ([[k f] t] & <- & I).
        - destruct (Fo _ _ _ I) as (ss & X). destruct (A1 _ _ _ _ Po X) as (f1 & s1 & X1 & _). destruct (Cv' _ _ _ X1) as (f2 & t2 & I2 & _).
          apply in_map_iff. exists (k, f2, t2). split; auto. symmetry. eapply (Ent T); eauto.
        - destruct (Fo' _ _ _ I) as (ss & X). destruct (A2 _ _ _ _ Po X) as (f1 & s1 & X1 & _). destruct (Cv _ _ _ X1) as (f2 & t2 & I2 & _).
          apply in_map_iff. exists (k, f2, t2). split; auto. eapply (Ent T); eauto. }
      apply (sorted_perm_eq irc_name); [exact So|exact So'|exact Nd|].
      apply perm_of; [exact (nodup_names _ _ Nd)|exact (nodup_names _ _ Nd')| |]; intros [T fs] I.
      - assert (Po : possible s P T) by (apply Ps; apply in_map_iff; exists (IRComplex T fs); auto).
        apply Ps' in Po as J. apply in_map_iff in J. destruct J as ([T' fs'] & E & J). cbn in E. subst T'.
        rewrite (Fl T fs fs' Po (Fs _ _ I) (Fs' _ _ J)). auto.
      - assert (Po : possible s P T) by (apply Ps'; apply in_map_iff; exists (IRComplex T fs); auto).
        apply Ps in Po as J. apply in_map_iff in J. destruct J as ([T' fs'] & E & J). cbn in E. subst T'.
        rewrite <- (Fl T fs' fs Po (Fs _ _ J) (Fs' _ _ I)). auto.
    Qed.
  End Det.
End Rewrite.
