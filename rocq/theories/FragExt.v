(** Fragments matter only through look-ups by name. *)
From Verif Require Export ShareWorlds.
From Verif Require Import PropC18.

Section Ext.
  Variable s : schema.
  Variables frags frags' : amap string fragdef.
  Hypothesis ext : forall n, aget n frags = aget n frags'.

  Lemma occ_ext T P M k P' n ss : occ s frags T P M k P' n ss -> occ s frags' T P M k P' n ss.
  Proof.
    induction 1 as [P M p al f a d sub I|P M p c d sub k P' f ss I Po _ IH|P M p name d fd k P' f ss I A Po _ IH].
    - econstructor; eauto.
    - eapply occ_inline; eauto.
    - eapply occ_spread; eauto. rewrite <- ext. auto.
  Qed.
  Lemma focc_ext T P M k f ss : focc s frags T P M k f ss -> focc s frags' T P M k f ss.
  Proof. intros (P' & n & X & F). exists P', n. split; auto. apply occ_ext. auto. Qed.
  Lemma valid_ext :
    (forall P x, valid_sel s frags P x -> valid_sel s frags' P x) /\
    (forall P l, valid_sels s frags P l -> valid_sels s frags' P l).
  Proof.
    apply (valid_mutind s frags (fun P x _ => valid_sel s frags' P x) (fun P l _ => valid_sels s frags' P l)).
    - intros. econstructor; eauto.
    - intros. eapply valid_composite; eauto.
    - intros. constructor; auto.
    - intros. econstructor; eauto. rewrite <- ext. auto.
    - constructor.
    - constructor; auto.
  Qed.
End Ext.

(** The definitions also depend on a set of selections only through its members *)
Lemma occ_set s frags T P (M M' : selset) k P' n ss : (forall x, M x -> M' x) ->
  occ s frags T P M k P' n ss -> occ s frags T P M' k P' n ss.
Proof.
  intros I X. destruct X; [econstructor; eauto|eapply occ_inline; eauto|eapply occ_spread; eauto].
Qed.
Lemma focc_set s frags T P (M M' : selset) k f ss : (forall x, M x -> M' x) -> focc s frags T P M k f ss -> focc s frags T P M' k f ss.
Proof. intros I (P' & n & X & F). exists P', n. split; auto. eapply occ_set; eauto. Qed.

Section Ext2.
  Variable s : schema.
  Variables frags frags' : amap string fragdef.
  Hypothesis ext : forall n, aget n frags = aget n frags'.

  Lemma focc_iff T P (M M' : selset) : (forall x, M x <-> M' x) -> forall k f ss, focc s frags T P M k f ss <-> focc s frags' T P M' k f ss.
  Proof.
    intros I k f ss. split; intros H.
    - apply (focc_ext s frags frags' ext). eapply focc_set; [|exact H]. apply I.
    - apply (focc_ext s frags' frags (fun n => eq_sym (ext n))). eapply focc_set; [|exact H]. apply I.
  Qed.
  Lemma merged_iff (O O' : occset) k t : (forall k f ss, O k f ss <-> O' k f ss) -> forall x, merged O k t x <-> merged O' k t x.
  Proof. intros I x. split; intros (f & ss & H & E); exists f, ss; split; auto; apply I; auto. Qed.

  Lemma unambiguous_ext P (M : selset) : unambiguous s frags P M -> forall M' : selset, (forall x, M x <-> M' x) -> unambiguous s frags' P M'.
  Proof.
    induction 1 as [P M H1 _ H2]. intros M' I. constructor.
    - intros T k f ss f' ss' Po A B. eapply H1; eauto; eapply focc_iff; eauto.
    - intros T k f ss Po A C. eapply H2; eauto; [eapply focc_iff; eauto|]. apply merged_iff. apply focc_iff. auto.
  Qed.
  Lemma frags_valid_ext l : frags_valid s frags l -> frags_valid s frags' l.
  Proof.
    intros V n fd S A. rewrite <- ext in A. destruct (V n fd S A) as [C Vs]. split; auto. apply (valid_ext s frags frags' ext). auto.
  Qed.
End Ext2.
