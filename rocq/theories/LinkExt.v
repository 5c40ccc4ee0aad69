(** Lemmas: the definitions of the specification depend on the fragments only through what each name stands for. *)
From Verif Require Import FragExt SpecReg SpecResp RespFacts PropC18.
From Verif Require PropC07 PropC35.

Section Ext.
  Variables frags frags' : amap string fragdef.
  Hypothesis ext : forall n, aget n frags = aget n frags'.
  Variable s : schema.

  Lemma key_iff P (M M' : selset) T k : (forall x, M x <-> M' x) -> key s frags P M T k <-> key s frags' P M' T k.
  Proof. intros I. split; intros (f & ss & H); exists f, ss; eapply focc_iff; try exact H; eauto; intros x; symmetry; apply I. Qed.
  Lemma shares_iff P (M M' : selset) T : (forall x, M x <-> M' x) -> shares s frags P M T <-> shares s frags' P M' T.
  Proof.
    intros I. split; intros (Po & H); (split; [exact Po|]); intros k K T' Po'.
    - apply (key_iff P M M' T' k I). apply H; auto. apply (key_iff P M M' T k I). exact K.
    - apply (key_iff P M M' T' k I). apply H; auto. apply (key_iff P M M' T k I). exact K.
  Qed.
  Lemma alike_ext R P (M N : selset) : alike s frags R P M N ->
    forall M' N' : selset, (forall x, M x <-> M' x) -> (forall x, N x <-> N' x) -> alike s frags' R P M' N'.
  Proof.
    induction 1 as [P M N H1 H2 _ H3]. intros M' N' I J. constructor.
    - intros T k f ss Po A. apply (focc_iff s _ _ ext T P M M' I) in A. destruct (H1 T k f ss Po A) as (f' & ss' & B & C).
      exists f', ss'. split; auto. apply (focc_iff s _ _ ext T P N N' J). exact B.
    - intros T k f ss Po A. apply (focc_iff s _ _ ext T P N N' J) in A. destruct (H2 T k f ss Po A) as (f' & ss' & B & C).
      exists f', ss'. split; auto. apply (focc_iff s _ _ ext T P M M' I). exact B.
    - intros T k f ss Po A C. apply (focc_iff s _ _ ext T P M M' I) in A. apply (H3 T k f ss Po A C).
      + apply merged_iff. apply focc_iff; auto.
      + apply merged_iff. apply focc_iff; auto.
  Qed.
  Lemma regular_ext P (M : selset) : regular s frags P M -> forall M' : selset, (forall x, M x <-> M' x) -> regular s frags' P M'.
  Proof.
    induction 1 as [P M H1 H2 _ H3]. intros M' I. pose proof (fun T => focc_iff s _ _ ext T P M M' I) as Fi. constructor.
    - intros T k f ss f' ss' Po A B. eapply H1; eauto; apply Fi; eauto.
    - intros T T' k f ss f' ss' Sh Sh' A B. apply (shares_iff P M M' _ I) in Sh. apply (shares_iff P M M' _ I) in Sh'.
      apply Fi in A. apply Fi in B. destruct (H2 _ _ _ _ _ _ _ Sh Sh' A B) as [E H]. split; auto.
      intros C. eapply alike_ext; [exact (H C)| |]; apply merged_iff; apply Fi.
    - intros T k f ss Po A C. apply Fi in A. apply (H3 T k f ss Po A C). apply merged_iff. apply Fi.
  Qed.
  Lemma tail_ext P (M : selset) r : tail s frags P M r -> forall M' : selset, (forall x, M x <-> M' x) -> tail s frags' P M' r.
  Proof.
    induction 1 as [P M|P M T pre Po Tp|P M T k f ss pre r Po Tp F C _ IH]; intros M' I.
    - constructor.
    - eapply tail_part; eauto.
    - pose proof (fun T => focc_iff s _ _ ext T P M M' I) as Fi. eapply tail_field; eauto; [apply Fi; eauto|]. apply IH. apply merged_iff. apply Fi.
  Qed.

  Variable active : list directive -> Prop.
  Lemma collects_ext T (M : selset) k n ss : collects s frags active T M k n ss -> collects s frags' active T M k n ss.
  Proof. induction 1; [econstructor; eauto|eapply col_inline; eauto|eapply col_spread; eauto; rewrite <- ext; auto]. Qed.
  Lemma collects_set T (M M' : selset) k n ss : (forall x, M x <-> M' x) -> collects s frags active T M k n ss -> collects s frags active T M' k n ss.
  Proof.
    intros I X. destruct X as [M p al n a d sub H A|M p c d sub k n ss H A Po X|M p name d fd k n ss H A E Po X]; apply I in H.
    - eapply col_field; eauto.
    - eapply col_inline; eauto.
    - eapply col_spread; eauto.
  Qed.
End Ext.

Lemma labels_apart_ext frags frags' s : (forall n, aget n frags = aget n frags') ->
  forall P (M : selset), labels_apart s frags P M -> forall M' : selset, (forall x, M x <-> M' x) -> labels_apart s frags' P M'.
Proof.
  intros ext P M H. induction H as [P M H1 H2 H3 IH]. intros M' I. pose proof (fun T => focc_iff s _ _ ext T P M M' I) as Fi.
  assert (Tb : forall T k f r, tail s frags' (ft_name (sf_type f)) (merged (focc s frags' T P M') k (ft_name (sf_type f))) r ->
    tail s frags (ft_name (sf_type f)) (merged (focc s frags T P M) k (ft_name (sf_type f))) r).
  { intros T k f r Tr. eapply (tail_ext frags' frags); [intros n; symmetry; apply ext|exact Tr|]. intros x. symmetry. apply merged_iff. apply Fi. }
  constructor.
  - intros T k f ss r k' f' ss' r' Po F F' C C' Tr Tr'. apply Fi in F. apply Fi in F'. apply (H1 T k f ss r k' f' ss' r'); auto.
  - assert (Tt : forall T r, type_tail s frags' P M' T r -> type_tail s frags P M T r).
    { intros T r [->|(k & f & ss & r' & F & C & Tr & ->)]; [left; reflexivity|]. right. exists k, f, ss, r'. split; [apply Fi; exact F|]. auto. }
    intros T T' x x' r r' Po Po' Hx Hx' Tr Tr'. apply (H2 T T' x x' r r'); auto.
  - intros T k f ss Po F C. apply Fi in F. apply (IH T k f ss Po F C). apply merged_iff. apply Fi.
Qed.

Section Answers.
  Variables frags frags' : amap string fragdef.
  Hypothesis ext : forall n, aget n frags = aget n frags'.
  Variable s : schema.
  Variable js : jschema.
  Variable active : list directive -> Prop.
  Variable custom : string -> value -> Prop.
  Lemma collects_iff T (M M' : selset) : (forall x, M x <-> M' x) ->
    forall k n ss, collects s frags active T M k n ss <-> collects s frags' active T M' k n ss.
  Proof.
    intros I k n ss. split; intros H.
    - apply (collects_ext frags frags' ext). eapply collects_set; [|exact H]. exact I.
    - apply (collects_ext frags' frags (fun x => eq_sym (ext x))). eapply collects_set; [|exact H]. intros x. symmetry. apply I.
  Qed.
  Lemma object_response_ext n : forall T (M M' : selset) v, (forall x, M x <-> M' x) ->
    object_response js s frags active custom n T M v -> object_response js s frags' active custom n T M' v.
  Proof.
    induction n as [|n IH]; [intros ? ? ? ? _ []|]. intros T M M' v I (kvs & -> & K & V). pose proof (collects_iff T M M' I) as Ci.
    exists kvs. split; [reflexivity|]. split.
    - intros k. rewrite K. split; intros (f & ss & H); exists f, ss; apply Ci; exact H.
    - intros k x Ix. destruct (V k x Ix) as (fld & ss & C & [H|(kind & g & D & H)]); exists fld, ss; (split; [apply Ci; exact C|]); [left; exact H|].
      right. exists kind, g. split; [exact D|]. revert H. apply gvalues_mono. intros y [L|(T' & Po & O)]; [left; exact L|].
      right. exists T'. split; [exact Po|]. revert O. apply IH. intros z. split; intros (f' & ss' & C' & Z); exists f', ss'; (split; [apply Ci; exact C'|exact Z]).
  Qed.
  Lemma response_frags P l v : response js s frags active custom P l v -> response js s frags' active custom P l v.
  Proof. intros (n & T & Po & O). exists n, T. split; [exact Po|]. eapply object_response_ext; [|exact O]. tauto. Qed.
End Answers.

(** The fragments a file can spread, as a set of texts has them and as a run finds them *)
Lemma fragments_agree e f c path contents frags ifrags : PropC35.imported_fragments e f c path contents frags ->
  PropC07.imported_fragments e f c path contents ifrags -> forall n, aget n frags = aget n ifrags.
Proof.
  intros (A & B) C n. destruct (aget n frags) as [fd|] eqn:E.
  - symmetry. apply C. apply A. exact E.
  - destruct (aget n ifrags) as [fd|] eqn:E'; [|reflexivity]. apply C in E'. destruct E' as (t & o & R & H & <-).
    exfalso. apply (B t o fd R H). exact E.
Qed.
