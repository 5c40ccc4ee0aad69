(** Requests written in another way, with other fragments, collect the same and compile to the same. *)
From Verif Require Export SpecRecast Rewrite.
From Verif Require Import PropC18.

Scheme recast_mind := Minimality for recast Sort Prop with recasts_mind := Minimality for recasts Sort Prop.
Combined Scheme recast_mutind from recast_mind, recasts_mind.

Section Recast.
  Variable s : schema.
  Variables fr fr' : amap string fragdef.

  Definition told_by (M M' : selset) : Prop :=
    (forall x, M x -> exists x', M' x' /\ recast fr fr' x x') /\ (forall x', M' x' -> exists x, M x /\ recast fr fr' x x').

  Lemma recasts_told l l' : recasts fr fr' l l' -> told_by (fun x => In x l) (fun x => In x l').
  Proof.
    induction 1 as [|x x' l l' X _ [A B]|l l' l'' _ [A B] E].
    - split; intros x [].
    - split; intros y [<-|I]; [exists x'; cbn; auto| |exists x; cbn; auto|].
      + destruct (A y I) as (y' & J & Y). exists y'. cbn. auto.
      + destruct (B y I) as (y' & J & Y). exists y'. cbn. auto.
    - split; intros y I.
      + destruct (A y I) as (y' & J & Y). exists y'. split; auto. apply E. auto.
      + apply E in I. auto.
  Qed.

  Lemma occ_recast T P M k P' n ss : occ s fr T P M k P' n ss -> forall M' : selset, (forall x, M x -> exists x', M' x' /\ recast fr fr' x x') ->
    exists ss', occ s fr' T P M' k P' n ss' /\ recasts fr fr' ss ss'.
  Proof.
    induction 1 as [P M p al n a d sub I|P M p c d sub k P' n ss I Po _ IH|P M p name d fd k P' n ss I Af Po _ IH]; intros M' A.
    - destruct (A _ I) as (x' & J & R). inversion R as [? ? ? ? ? ? p' al' a' d' sub' E Rs|? ? ? ? ? N _ _]; subst; [|inversion N].
      exists sub'. split; auto. rewrite E. econstructor. eauto.
    - destruct (A _ I) as (x' & J & R). inversion R as [|? ? c0 l l' N N' Rs]; subst. inversion N; subst.
      destruct (IH (fun x => In x l') (proj1 (recasts_told _ _ Rs))) as (ss' & X & Y). exists ss'. split; auto.
      inversion N'; subst; [eapply occ_inline; eauto|eapply occ_spread; eauto].
    - destruct (A _ I) as (x' & J & R). inversion R as [|? ? c0 l l' N N' Rs]; subst. inversion N as [|? ? ? fd0 Af0]; subst.
      rewrite Af in Af0. injection Af0 as <-.
      destruct (IH (fun x => In x l') (proj1 (recasts_told _ _ Rs))) as (ss' & X & Y). exists ss'. split; auto.
      inversion N' as [? ? ? ? E1|? ? ? fd' Af' E1]; subst; [eapply occ_inline; eauto|]. eapply occ_spread; eauto; rewrite ?H1, ?H2; auto; congruence.
  Qed.
  Lemma occ_recast_back T P M' k P' n ss' : occ s fr' T P M' k P' n ss' -> forall M : selset, (forall x', M' x' -> exists x, M x /\ recast fr fr' x x') ->
    exists ss, occ s fr T P M k P' n ss /\ recasts fr fr' ss ss'.
  Proof.
    induction 1 as [P M' p al n a d sub I|P M' p c d sub k P' n ss I Po _ IH|P M' p name d fd k P' n ss I Af Po _ IH]; intros M A.
    - destruct (A _ I) as (x' & J & R). inversion R as [p' al' ? a' d' sub' ? ? ? ? ? E Rs|? ? ? ? ? _ N _]; subst; [|inversion N].
      exists sub'. split; auto. rewrite <- E. econstructor. eauto.
    - destruct (A _ I) as (x' & J & R). inversion R as [|? ? c0 l l' N N' Rs]; subst. inversion N'; subst.
      destruct (IH (fun x => In x l) (proj2 (recasts_told _ _ Rs))) as (ss' & X & Y). exists ss'. split; auto.
      inversion N; subst; [eapply occ_inline; eauto|eapply occ_spread; eauto].
    - destruct (A _ I) as (x' & J & R). inversion R as [|? ? c0 l l' N N' Rs]; subst. inversion N' as [|? ? ? fd0 Af0]; subst.
      rewrite Af in Af0. injection Af0 as <-.
      destruct (IH (fun x => In x l) (proj2 (recasts_told _ _ Rs))) as (ss' & X & Y). exists ss'. split; auto.
      inversion N as [? ? ? ? E1|? ? ? fd' Af' E1]; subst; [eapply occ_inline; eauto|]. eapply occ_spread; eauto; rewrite ?H1, ?H2; auto; congruence.
  Qed.

  Lemma merged_told T P (M M' : selset) k t : told_by M M' -> told_by (merged (focc s fr T P M) k t) (merged (focc s fr' T P M') k t).
  Proof.
    intros [A B]. split.
    - intros x (f & ss & (P' & n & X & F) & E & I). destruct (occ_recast _ _ _ _ _ _ _ X M' A) as (ss' & X' & R).
      destruct (proj1 (recasts_told _ _ R) x I) as (x' & I' & Y). exists x'. split; auto. exists f, ss'. split; [exists P', n; auto|auto].
    - intros x (f & ss & (P' & n & X & F) & E & I). destruct (occ_recast_back _ _ _ _ _ _ _ X M B) as (ss' & X' & R).
      destruct (proj2 (recasts_told _ _ R) x I) as (x' & I' & Y). exists x'. split; auto. exists f, ss'. split; [exists P', n; auto|auto].
  Qed.

  Lemma recast_collects P M : settled s fr P M -> forall M', told_by M M' -> collects_same s fr fr' same_data P M M'.
  Proof.
    induction 1 as [P M _ _ IH]. intros M' Td. pose proof Td as [A B]. constructor.
    - intros T k f ss Po (P' & n & X & F). destruct (occ_recast _ _ _ _ _ _ _ X M' A) as (ss' & X' & _).
      exists f, ss'. split; [exists P', n; auto|repeat split].
    - intros T k f ss Po (P' & n & X & F). destruct (occ_recast_back _ _ _ _ _ _ _ X M B) as (ss' & X' & _).
      exists f, ss'. split; [exists P', n; auto|repeat split].
    - intros T k f ss Po F C. eapply IH; eauto. apply merged_told. exact Td.
  Qed.

  Lemma rename_recasts g : renamed_frags g fr fr' ->
    (forall P x, valid_sel s fr P x -> recast fr fr' x (rename_sel g x)) /\
    (forall P l, valid_sels s fr P l -> recasts fr fr' l (List.map (rename_sel g) l)).
  Proof.
    intros Rn. apply (valid_mutind s fr (fun P x _ => recast fr fr' x (rename_sel g x)) (fun P l _ => recasts fr fr' l (List.map (rename_sel g) l))).
    - intros. cbn. constructor; auto. constructor.
    - intros. cbn [rename_sel]. constructor; auto.
    - intros. cbn [rename_sel]. eapply rc_narrow; [constructor|constructor|auto].
    - intros P p name d fd Af _ _ IH. cbn [rename_sel]. destruct (Rn _ _ Af) as (fd' & Af' & Ec & Es).
      eapply rc_narrow; [apply nw_spread; exact Af| |exact IH]. rewrite <- Ec, <- Es. apply nw_spread. exact Af'.
    - intros. constructor.
    - intros. cbn [List.map]. constructor; auto.
  Qed.

  Lemma recast_valid :
    (forall x x', recast fr fr' x x' -> forall P, valid_sel s fr P x -> valid_sel s fr' P x') /\
    (forall l l', recasts fr fr' l l' -> (l = [] <-> l' = []) /\ forall P, valid_sels s fr P l -> valid_sels s fr' P l').
  Proof.
    apply (recast_mutind fr fr' (fun x x' => forall P, valid_sel s fr P x -> valid_sel s fr' P x')
      (fun l l' => (l = [] <-> l' = []) /\ forall P, valid_sels s fr P l -> valid_sels s fr' P l')).
    - intros p al n a d sub p' al' a' d' sub' E Rs [Nl IH] P V. inversion V as [? ? ? ? ? ? f Ff Nc|? ? ? ? ? ? f ? Ff C Ne Vs| |]; subst.
      + rewrite (proj1 Nl eq_refl). eapply valid_leaf; eauto.
      + eapply valid_composite; eauto. intros E0. apply Ne. apply Nl. exact E0.
    - intros x x' c l l' N N' Rs [_ IH] P V.
      assert (X : composite s c /\ valid_sels s fr c l).
      { inversion N as [p c0 d sub|p name d fd Af]; subst; inversion V as [| |? ? ? ? ? C Vs|? ? ? ? fd0 Af0 C Vs]; subst; auto. rewrite Af in Af0. injection Af0 as <-. auto. }
      destruct X as [C Vs]. apply IH in Vs. inversion N' as [p c0 d sub|p name d fd Af]; subst; [constructor; auto|econstructor; eauto].
    - split; [tauto|]. intros P _. constructor.
    - intros x x' l l' _ IHx _ [_ IHl]. split; [split; discriminate|]. intros P V. inversion V; subst. constructor; auto.
    - intros l l' l'' _ [Nl IH] E. split.
      + rewrite Nl. split; intros ->; [destruct l'' as [|y l'']|destruct l' as [|y l']]; auto; exfalso; [apply (E y)|apply (E y)]; left; reflexivity.
      + intros P V. apply IH in V. apply valid_all. intros x I. apply (proj1 (valid_all s fr' P l') V). apply E. exact I.
  Qed.

  (** *** Collected fields determine the intermediate representation, with two maps of fragments *)
  Hypothesis cons_ok : consistent s.
  Section Det.
    Variable R : sfield -> sfield -> Prop.
    Hypothesis R_data : forall f f', R f f' -> same_data f f'.
    Lemma coll_det2 P M M' : collects_same s fr fr' R P M M' -> settled s fr P M -> forall cs cs',
      coll_ok s fr P M cs -> coll_ok s fr' P M' cs' -> cs = cs'.
    Proof.
      induction 1 as [P M M' A1 A2 _ IH]. intros St. inversion St as [P0 M0 S1 S2]; subst.
      intros cs cs' C C'. inversion C as [? ? ? So Nd Ps Fs]; subst. inversion C' as [? ? ? So' Nd' Ps' Fs']; subst.
      assert (Data : forall T k f ss f' ss', possible s P T -> focc s fr T P M k f ss -> focc s fr' T P M' k f' ss' -> same_data f f').
      { intros T k f ss f' ss' Po F F'. destruct (A2 _ _ _ _ Po F') as (g & sg & G & Rg). eapply same_trans; [|apply R_data; exact Rg]. eauto. }
      assert (Uniq' : forall T k f ss f' ss', possible s P T -> focc s fr' T P M' k f ss -> focc s fr' T P M' k f' ss' -> same_data f f').
      { intros T k f ss f' ss' Po F F'. destruct (A2 _ _ _ _ Po F) as (g & sg & G & Rg). eapply same_trans; [apply same_sym, R_data; exact Rg|eauto]. }
      assert (Ent : forall T k f t f' t', possible s P T -> (exists ss, focc s fr T P M k f ss) -> (exists ss, focc s fr' T P M' k f' ss) ->
        ty_ok s fr f (merged (focc s fr T P M) k (ft_name (sf_type f))) t -> ty_ok s fr' f' (merged (focc s fr' T P M') k (ft_name (sf_type f'))) t' ->
        mk_irfield (k, f, t) = mk_irfield (k, f', t')).
      { intros T k f t f' t' Po (ss & F) (ss' & F') Ty Ty'. destruct (Data _ _ _ _ _ _ Po F F') as (Et & Ed & Ep).
        assert (t = t') as ->. 2:{ cbn. rewrite Et, Ed, Ep. reflexivity. }
        rewrite <- Et in Ty'.
        inversion Ty as [? ? D|? ? sc D|? ? D|? ? cs1 D Ck]; subst; inversion Ty' as [? ? D'|? ? sc' D'|? ? D'|? ? cs2 D' Ck']; subst; rewrite <- Et in D';
          try rewrite D in D'; try discriminate; try (rewrite D' in D; discriminate); try congruence.
        f_equal. rewrite <- Et in Ck'. assert (Cm : composite s (ft_name (sf_type f))).
        { destruct F as (P' & n & _ & F). apply kind_composite; auto. eapply cons_ok; eauto. }
        eapply IH; eauto. }
      assert (Fl : forall T fs fs', possible s P T -> fields_ok s fr (focc s fr T P M) fs -> fields_ok s fr' (focc s fr' T P M') fs' -> fs = fs').
      { intros T fs fs' Po F F'. inversion F as [O es Sd N Fo Ty Cv EO Ef]. inversion F' as [O' es' Sd' N' Fo' Ty' Cv' EO' Ef'].
        assert (N1 : NoDup (List.map irf_prop (List.map mk_irfield es))) by (eapply (keys_once s fr T P M); eauto).
        assert (N1' : NoDup (List.map irf_prop (List.map mk_irfield es'))) by (eapply (keys_once s fr' T P M'); eauto).
        apply (sorted_perm_eq irf_prop); [exact (mk_sorted _ Sd)|exact (mk_sorted _ Sd')|exact N1|].
        apply perm_of; [exact (nodup_names _ _ N1)|exact (nodup_names _ _ N1')| |]; intros y I; apply in_map_iff in I; destruct I as ([[k f] t] & <- & I).
        - destruct (Fo _ _ _ I) as (ss & X). destruct (A1 _ _ _ _ Po X) as (f1 & s1 & X1 & _). destruct (Cv' _ _ _ X1) as (f2 & t2 & I2 & _).
          apply in_map_iff. exists (k, f2, t2). split; auto. symmetry. eapply (Ent T); eauto.
        - destruct (Fo' _ _ _ I) as (ss & X). destruct (A2 _ _ _ _ Po X) as (f1 & s1 & X1 & _). destruct (Cv _ _ _ X1) as (f2 & t2 & I2 & _).
          apply in_map_iff. exists (k, f2, t2). split; auto. eapply (Ent T); eauto. }
      apply (sorted_perm_eq irc_name); [exact So|exact So'|exact Nd|].
      apply perm_of; [exact (nodup_names _ _ Nd)|exact (nodup_names _ _ Nd')| |]; intros [T fs] I.
      - assert (Po : possible s P T) by (apply Ps; apply in_map_iff; exists (IRComplex T fs); auto).
        apply Ps' in Po as J. apply in_map_iff in J. destruct J as ([T' fs'] & E & J). cbn in E. subst T'.
        rewrite (Fl T fs fs' Po (Fs _ _ I) (Fs' _ _ J)). auto.
      - assert (Po : possible s P T) by (apply Ps'; apply in_map_iff; exists (IRComplex T fs); auto).
        apply Ps in Po as J. apply in_map_iff in J. destruct J as ([T' fs'] & E & J). cbn in E. subst T'.
        rewrite <- (Fl T fs' fs Po (Fs _ _ J) (Fs' _ _ I)). auto.
    Qed.
  End Det.
End Recast.

(** *** Documents *)
Lemma vars_same s vs vs' x : same_vars vs vs' -> try_build_variable_ir s vs = Ok x -> try_build_variable_ir s vs' = Ok x.
Proof.
  intros V. assert (C : forall y, collect_res (List.map (build_variable s) vs) = Ok y -> collect_res (List.map (build_variable s) vs') = Ok y).
  { induction V as [|v v' vs vs' [En Et] V IH]; cbn [List.map collect_res]; [auto|]. intros y H.
    assert (B : forall b, build_variable s v = Ok b -> build_variable s v' = Ok b).
    { intros b B. assert (U : forall m, unwrap_var_def v = Ok m -> unwrap_var_def v' = Ok m).
      { intros m U. unfold unwrap_var_def in U |- *. rewrite <- Et. repeat match goal with |- context [match ?t with VTNamed _ => _ | _ => _ end] => destruct t end; try discriminate; exact U. }
      unfold build_variable in B |- *. destruct (unwrap_var_def v) as [[m n]|]; [|discriminate]. rewrite (U _ eq_refl).
      assert (T : forall t, vtype_of_name s n (vd_pos v) = Ok t -> vtype_of_name s n (vd_pos v') = Ok t).
      { intros t E. unfold vtype_of_name in E |- *. repeat match goal with |- context [if ?b then _ else _] => destruct b end; try congruence. }
      destruct (vtype_of_name s n (vd_pos v)); [|discriminate]. rewrite (T _ eq_refl), <- En. exact B. }
    destruct (build_variable s v) as [b|]; [|discriminate]. rewrite (B _ eq_refl).
    destruct (collect_res (List.map (build_variable s) vs)) as [bs|]; [|discriminate]. rewrite (IH _ eq_refl). exact H. }
  intros H. unfold try_build_variable_ir in H |- *. destruct V as [|v v' vs vs' A V]; [exact H|].
  destruct (collect_res (List.map (build_variable s) (v :: vs))); [|discriminate]. rewrite (C _ eq_refl). exact H.
Qed.

(** What [same_head] says of the names, kinds and types *)
Lemma head_parts d d' P l : same_head d d' -> doc_root d = Some (P, l) ->
  exists l', doc_root d' = Some (P, l') /\ def_name d' = def_name d /\ def_kind d' = def_kind d /\ is_subscription d' = is_subscription d /\
    same_vars (doc_vars d) (doc_vars d').
Proof.
  destruct d as [[p m|k p n vs ds m]|f], d' as [[p' m'|k' p' n' vs' ds' m']|f']; cbn [same_head]; try contradiction; intros H E.
  - discriminate E.
  - destruct H as (<- & <- & V). exists m'. destruct k; cbn in *; try discriminate; injection E as <- <-; auto 9.
  - destruct H as (En & Ec). cbn in E. injection E as <- <-. exists (fr_sels f'). cbn. rewrite En, Ec. repeat split; auto. constructor.
Qed.

(** Maps with the same lookups *)
Lemma recast_ext fr fr' gr gr' : (forall n, aget n fr = aget n gr) -> (forall n, aget n fr' = aget n gr') ->
  (forall x x', recast fr fr' x x' -> recast gr gr' x x') /\ (forall l l', recasts fr fr' l l' -> recasts gr gr' l l').
Proof.
  intros E E'. apply (recast_mutind fr fr' (fun x x' => recast gr gr' x x') (fun l l' => recasts gr gr' l l')).
  - intros. constructor; auto.
  - intros x x' c l l' N N' _ IH. apply (rc_narrow gr gr' x x' c l l'); auto.
    + destruct N as [|? ? ? ? A]; constructor. rewrite <- E. exact A.
    + destruct N' as [|? ? ? ? A]; constructor. rewrite <- E'. exact A.
  - constructor.
  - intros. constructor; auto.
  - intros. eapply rc_set; eauto.
Qed.
Section Chain.
  Variable s : schema.
  Lemma collects_trans fr fr' fr'' P (M M' : selset) : collects_same s fr fr' same_data P M M' -> forall M'' : selset,
    collects_same s fr' fr'' same_data P M' M'' -> collects_same s fr fr'' same_data P M M''.
  Proof.
    induction 1 as [P M M' A1 A2 _ IH]. intros M'' H. inversion H as [? ? ? B1 B2 B3]; subst. constructor.
    - intros T k f ss Po F. destruct (A1 _ _ _ _ Po F) as (f' & ss' & F' & D). destruct (B1 _ _ _ _ Po F') as (f2 & ss2 & F2 & D2).
      exists f2, ss2. split; [exact F2|]. eapply same_trans; eauto.
    - intros T k f ss Po F. destruct (B2 _ _ _ _ Po F) as (f' & ss' & F' & D). destruct (A2 _ _ _ _ Po F') as (f2 & ss2 & F2 & D2).
      exists f2, ss2. split; [exact F2|]. eapply same_trans; eauto.
    - intros T k f ss Po F C. destruct (A1 _ _ _ _ Po F) as (f' & ss' & F' & D). eapply IH; eauto.
      destruct D as (Et & _). rewrite Et in C |- *. eapply B3; eauto.
  Qed.
  Lemma collects_back fr fr' P (M M' : selset) : collects_same s fr fr' same_data P M M' -> collects_same s fr' fr same_data P M' M.
  Proof.
    induction 1 as [P M M' A1 A2 _ IH]. constructor.
    - intros T k f ss Po F. destruct (A2 _ _ _ _ Po F) as (f' & ss' & F' & D). exists f', ss'. split; [exact F'|apply same_sym; exact D].
    - intros T k f ss Po F. destruct (A1 _ _ _ _ Po F) as (f' & ss' & F' & D). exists f', ss'. split; [exact F'|apply same_sym; exact D].
    - intros T k f ss Po F C. destruct (A2 _ _ _ _ Po F) as (f' & ss' & F' & D). destruct D as (Et & _). rewrite <- Et in C |- *. eapply IH; eauto.
  Qed.
  Lemma collects_settled fr fr' P (M M' : selset) : collects_same s fr fr' same_data P M M' -> settled s fr P M -> settled s fr' P M'.
  Proof.
    induction 1 as [P M M' A1 A2 _ IH]. intros St. inversion St as [? ? S1 S2]; subst. constructor.
    - intros T k f ss f' ss' Po F F'. destruct (A2 _ _ _ _ Po F) as (g & sg & G & D). destruct (A2 _ _ _ _ Po F') as (g' & sg' & G' & D').
      eapply same_trans; [apply same_sym; exact D|]. eapply same_trans; [eapply S1; eauto|exact D'].
    - intros T k f ss Po F C. destruct (A2 _ _ _ _ Po F) as (g & sg & G & D). destruct D as (Et & _). rewrite <- Et in C |- *. eapply IH; eauto.
  Qed.
  Lemma alike_collects fr P M M' : alike s fr same_data P M M' -> collects_same s fr fr same_data P M M'.
  Proof. induction 1 as [P M M' A1 A2 _ IH]. constructor; eauto. Qed.
  Lemma collects_ext fr fr' gr gr' : (forall n, aget n fr = aget n gr) -> (forall n, aget n fr' = aget n gr') ->
    forall P M M', collects_same s fr fr' same_data P M M' -> forall N N' : selset, (forall x, M x <-> N x) -> (forall x, M' x <-> N' x) -> collects_same s gr gr' same_data P N N'.
  Proof.
    intros E E'. induction 1 as [P M M' A1 A2 _ IH]. intros N N' I I'. constructor.
    - intros T k f ss Po F. apply (focc_iff s gr fr (fun n => eq_sym (E n)) T P N M (fun x => iff_sym (I x))) in F. destruct (A1 _ _ _ _ Po F) as (f' & ss' & F' & D).
      exists f', ss'. split; [|exact D]. apply (focc_iff s fr' gr' E' T P M' N' I'). exact F'.
    - intros T k f ss Po F. apply (focc_iff s gr' fr' (fun n => eq_sym (E' n)) T P N' M' (fun x => iff_sym (I' x))) in F. destruct (A2 _ _ _ _ Po F) as (f' & ss' & F' & D).
      exists f', ss'. split; [|exact D]. apply (focc_iff s fr gr E T P M N I). exact F'.
    - intros T k f ss Po F C. apply (focc_iff s gr fr (fun n => eq_sym (E n)) T P N M (fun x => iff_sym (I x))) in F. eapply IH; eauto.
      + apply merged_iff. apply focc_iff; auto.
      + apply merged_iff. apply focc_iff; auto.
  Qed.
End Chain.
Lemma settled_ext s frags frags' : (forall n, aget n frags = aget n frags') ->
  forall P (M : selset), settled s frags P M -> forall M' : selset, (forall x, M x <-> M' x) -> settled s frags' P M'.
Proof.
  intros ext. induction 1 as [P M H1 _ H2]. intros M' I. constructor.
  - intros T k f ss f' ss' Po A B. eapply H1; eauto; eapply focc_iff; eauto.
  - intros T k f ss Po A C. eapply H2; eauto; [eapply focc_iff; eauto|]. apply merged_iff. apply focc_iff; auto.
Qed.
