(** Lemmas about projects with fewer import lines. *)
From Verif Require Export SpecTrim.
From Verif Require Import MoveFacts RefactorFacts RecastFacts ProjectFacts BaseFacts.
From Verif Require PropC31.

(** Selections whose spreads have [U], as those of the fragments with [U] do *)
Lemma needed_recasts s fr fr' (U : string -> Prop) :
  (forall n fd, U n -> aget n fr = Some fd -> exists fd', aget n fr' = Some fd' /\ fr_cond fd' = fr_cond fd /\ respreads eq (fr_sels fd) (fr_sels fd')) ->
  (forall n fd k, U n -> aget n fr = Some fd -> spreads (fr_sels fd) k -> U k) ->
  (forall P x, valid_sel s fr P x -> (forall n, spreads [x] n -> U n) -> forall x', respread eq x x' -> recast fr fr' x x') /\
  (forall P l, valid_sels s fr P l -> (forall n, spreads l n -> U n) -> forall l', respreads eq l l' -> recasts fr fr' l l').
Proof.
  intros Rn Cl. apply (valid_mutind s fr (fun P x _ => (forall n, spreads [x] n -> U n) -> forall x', respread eq x x' -> recast fr fr' x x')
    (fun P l _ => (forall n, spreads l n -> U n) -> forall l', respreads eq l l' -> recasts fr fr' l l')).
  - intros. match goal with K : respread _ _ _ |- _ => inversion K; subst end. constructor; auto. match goal with K : respreads _ [] _ |- _ => inversion K; subst end. constructor.
  - intros P p al n a d fd sub Ff Cf Ns Vs IH Hu x' H. inversion H; subst. constructor; auto. apply IH; auto. intros k S. apply Hu. eapply spr_field; [left; reflexivity|exact S].
  - intros P p cn d sub Cc Vs IH Hu x' H. inversion H; subst. eapply rc_narrow; [constructor|constructor|]. apply IH; auto. intros k S. apply Hu. eapply spr_inline; [left; reflexivity|exact S].
  - intros P p name d fd Af Cf Vs IH Hu x' H. inversion H as [|? ? ? p' n' d' Gn|]; subst.
    assert (Un : U n') by (apply Hu; eapply spr_here; left; reflexivity). destruct (Rn _ _ Un Af) as (fd' & Af' & Ec & Es).
    eapply rc_narrow; [apply nw_spread; exact Af| |apply IH; [|exact Es]].
    + rewrite <- Ec. apply nw_spread. exact Af'.
    + intros k S. exact (Cl _ _ _ Un Af S).
  - intros P Hu l' H. inversion H; subst. constructor.
  - intros P x l V IHx Vs IHl Hu l' H. inversion H; subst. constructor.
    + apply IHx; auto. intros n S. apply Hu. inversion S as [? ? ? ? I|? ? ? ? ? ? ? ? I|? ? ? ? ? ? I]; subst; (destruct I as [->|[]]); [eapply spr_here|eapply spr_field|eapply spr_inline]; try (left; reflexivity); eauto.
    + apply IHl; auto. intros n S. apply Hu. inversion S as [? ? ? ? I|? ? ? ? ? ? ? ? I|? ? ? ? ? ? I]; subst; [eapply spr_here|eapply spr_field|eapply spr_inline]; try (right; eassumption); eauto.
Qed.

Section Trimmed.
Variables (e e' : env) (c c' : cconfig) (m : string -> string -> Prop) (f f' : fs).
Hypothesis M : trimmed_files e e' c c' m f f'.
Lemma trimmed_read a b x : m a b -> f (env_locate e a) = Ok x -> exists y, f' (env_locate e' b) = Ok y /\ trimmed_file e e' c c' m a x b y.
Proof. intros H E. specialize (M a b H). rewrite E in M. destruct (f' (env_locate e' b)) as [y|]; [|contradiction]. exists y. auto. Qed.
Lemma trimmed_was a b y : m a b -> f' (env_locate e' b) = Ok y -> exists x, f (env_locate e a) = Ok x /\ trimmed_file e e' c c' m a x b y.
Proof. intros H E. specialize (M a b H). rewrite E in M. destruct (f (env_locate e a)) as [x|]; [|contradiction]. exists x. auto. Qed.

(** What is reached now was reached before *)
Lemma reach_trimmed a b x y t' o' : trimmed_file e e' c c' m a x b y -> reach e' f' c' b y t' o' ->
  exists t o, m t t' /\ trimmed_file e e' c c' m t o t' o' /\ reach e f c a x t o.
Proof.
  intros K. induction 1 as [n l t' o' A E|mid' mc' n l t' o' R (mid & mc & Hm & Km & R0) A E].
  - destruct (proj2 (proj2 K) _ _ _ A) as (n0 & l0 & t & A0 & Ht). cbn beta in Ht. destruct (trimmed_was _ _ _ Ht E) as (o & Eo & Ko).
    exists t, o. split; [exact Ht|]. split; [exact Ko|]. eapply reach_one; eauto.
  - destruct (proj2 (proj2 Km) _ _ _ A) as (n0 & l0 & t & A0 & Ht). cbn beta in Ht. destruct (trimmed_was _ _ _ Ht E) as (o & Eo & Ko).
    exists t, o. split; [exact Ht|]. split; [exact Ko|]. eapply reach_more; eauto.
Qed.
Lemma importer_trimmed a b x y F' C' : trimmed_file e e' c c' m a x b y -> importer e' f' c' b y F' C' ->
  exists F C, trimmed_file e e' c c' m F C F' C' /\ importer e f c a x F C.
Proof.
  intros K [[-> ->]|R]; [exists a, x; split; [exact K|left; auto]|]. destruct (reach_trimmed _ _ _ _ _ _ K R) as (t & o & _ & K' & R0). exists t, o. split; [exact K'|right; exact R0].
Qed.
Lemma brought_trimmed a b x y n fd' : trimmed_file e e' c c' m a x b y -> brought e' f' c' b y n fd' ->
  exists fd, fr_cond fd' = fr_cond fd /\ respreads eq (fr_sels fd) (fr_sels fd') /\ brought e f c a x n fd.
Proof.
  intros K (t' & o' & R & H & <-). destruct (reach_trimmed _ _ _ _ _ _ K R) as (t & o & _ & (T & _) & R0). unfold holds_fragment in H. unfold restated_text in T. rewrite H in T.
  destruct (env_parse e o) as [ds|] eqn:Ed; [|contradiction]. inversion T as [|d ? ? ? Rt F]; subst. inversion F; subst. destruct Rt as [_ Rt].
  inversion Rt as [| |d0 ? Gn Ec Rs]; subst. exists d0. split; [exact Ec|]. split; [exact Rs|]. exists t, o. auto.
Qed.
Lemma operation_trimmed a b x y : trimmed_file e e' c c' m a x b y -> holds_operation e' y -> holds_operation e x.
Proof.
  intros (T & _) (op & E). unfold restated_text in T. rewrite E in T. unfold holds_operation. destruct (env_parse e x) as [ds|]; [|contradiction].
  inversion T as [|d ? ? ? [_ Rt] F]; subst. inversion F; subst. inversion Rt; subst; eauto.
Qed.
Lemma acyclic_trimmed a : acyclic e f c a -> forall b, m a b -> acyclic e' f' c' b.
Proof.
  unfold acyclic. induction 1 as [a _ IH]. intros b H. constructor. intros t' (y & n & l & o' & Ey & A & Eo).
  destruct (trimmed_was a b y H Ey) as (x & Ex & K). destruct (proj2 (proj2 K) _ _ _ A) as (n0 & l0 & t & A0 & Ht). cbn beta in Ht.
  destruct (trimmed_was _ _ _ Ht Eo) as (o & E0 & _). apply (IH t); [|exact Ht]. exists x, n0, l0, o. auto.
Qed.
End Trimmed.

(** The fragments that the imports of a file bring *)
Lemma brought_map e f c path contents : order_ok (env_order e path) -> paths_agree e f -> f (env_locate e path) = Ok contents -> acyclic e f c path ->
  (forall F C, importer e f c path contents F C -> ~ unclosed_import C) ->
  (forall n fd fd', brought e f c path contents n fd -> brought e f c path contents n fd' -> fd = fd') ->
  exists fr, forall n fd, aget n fr = Some fd <-> brought e f c path contents n fd.
Proof.
  intros Ho Ag E Ac Qu U. destruct (PropC31.C31_defined e f c path contents E Ac Qu) as (N & [im ms] & H). specialize (H N (Nat.le_refl N)).
  destruct (parse_foreign e path im ms) as [fr ms1] eqn:Ep. destruct (PropC31.C31_fragments N e f c path contents im ms fr ms1 Ho Ag H Ep) as [A B].
  exists fr. intros n fd. split; [intros X; exact (A n fd X)|]. intros Hb. pose proof Hb as (t & o & R & Hf & <-).
  destruct (B t o fd R Hf) as (fd' & X & _). rewrite X. f_equal. apply (U (fr_name fd)); [exact (A _ _ X)|exact Hb].
Qed.

(** What a valid source has become *)
Lemma valid_at_trimmed e e' c c' m f f' s path path' x d P l fr : trimmed_files e e' c c' m f f' -> m path path' -> needs_kept e e' c c' f f' path path' ->
  order_ok (env_order e' path') -> paths_agree e' f' ->
  (forall y n fd fd', f' (env_locate e' path') = Ok y -> brought e' f' c' path' y n fd -> brought e' f' c' path' y n fd' -> fd = fd') ->
  valid_at e f c s path x d P l fr ->
  exists y d' l' fr', valid_at e' f' c' s path' y d' P l' fr' /\ same_head d d' /\ recasts fr fr' l l'.
Proof.
  intros M Hm Nk Ho Ag U [Ex Ep Ac Qu Fo Fg Br Ro Su Cp Ps Vs Va In0].
  destruct (trimmed_read _ _ _ _ _ _ _ M _ _ _ Hm Ex) as (y & Ey & K).
  pose proof (proj1 K) as T. unfold restated_text in T. rewrite Ep in T. destruct (env_parse e' y) as [ds|] eqn:Ed; [|contradiction].
  inversion T as [|? d' ? ? [Sh Rt] F]; subst. inversion F; subst. clear T F.
  destruct (head_matched _ _ _ _ _ Rt Ro) as (l' & Ro' & Rs).
  assert (Ac' : acyclic e' f' c' path') by (eapply acyclic_trimmed; eauto).
  assert (Qu' : forall F C, importer e' f' c' path' y F C -> ~ unclosed_import C).
  { intros F C I Uc. destruct (importer_trimmed _ _ _ _ _ _ _ M _ _ _ _ _ _ K I) as (F0 & C0 & T & I0). apply (Qu _ _ I0). apply (proj1 (proj2 T)). exact Uc. }
  destruct (brought_map e' f' c' path' y Ho Ag Ey Ac' Qu' (fun n a b => U y n a b Ey)) as (fr' & Br').
  assert (Rc : recasts fr fr' l l').
  { refine (proj2 (needed_recasts s fr fr' (needs e f c path x l) _ _) P l Vs _ l' Rs).
    - intros n fd Un E. apply Br in E as Hb. destruct (Nk x y d P l n fd Ex Ey Ep Ro Un Hb) as (fd' & Hb'). exists fd'. split; [apply Br'; exact Hb'|].
      destruct (brought_trimmed _ _ _ _ _ _ _ M _ _ _ _ _ _ K Hb') as (fd0 & Ec & Es & Hb0). apply Br in Hb0. rewrite E in Hb0. injection Hb0 as ->. auto.
    - intros n fd k Un E S. eapply needs_through; [exact Un|apply Br; exact E|exact S].
    - intros n S. apply needs_own. exact S. }
  exists y, d', l', fr'. split; [|auto]. constructor; auto.
  - intros F C n ln t I A. destruct (importer_trimmed _ _ _ _ _ _ _ M _ _ _ _ _ _ K I) as (F0 & C0 & T & I0).
    destruct (proj2 (proj2 T) _ _ _ A) as (n0 & l0 & t0 & A0 & Ht). cbn beta in Ht. destruct (Fo _ _ _ _ _ I0 A0) as (o & Eo).
    destruct (trimmed_read _ _ _ _ _ _ _ M _ _ _ Ht Eo) as (o' & Eo' & _). eauto.
  - intros t o' R Hop. destruct (reach_trimmed _ _ _ _ _ _ _ M _ _ _ _ _ _ K R) as (t0 & o & _ & T & R0). apply (Fg _ _ R0). exact (operation_trimmed _ _ _ _ _ _ _ _ _ T Hop).
  - rewrite (subscription_matched _ _ _ Rt). exact Su.
  - apply (proj2 (proj2 (recast_valid s fr fr') _ _ Rc) P Vs).
  - intros v' I. destruct (var_matched _ _ _ (vars_matched _ _ _ Rt) I) as (v & Iv & Ev). unfold good_var. rewrite <- Ev. apply Va. exact Iv.
  - intros z (v' & I & -> & Nb & Et). destruct (var_matched _ _ _ (vars_matched _ _ _ Rt) I) as (v & Iv & Ev). apply In0. exists v. rewrite Ev. auto.
Qed.
Lemma valid_trimmed e e' ls ls' c c' root root' m f f' s : trimmed_project e e' ls ls' c c' root root' m f f' ->
  (forall p, order_ok (env_order e' p)) -> paths_agree e' f' -> unique_fragments e' ls' f' c' root' ->
  valid_project e ls f c s root -> valid_project e' ls' f' c' s root'.
Proof.
  intros [A N B C D] Ho Ag U [V1 V2 V3]. assert (Ac : accessible e' ls' root') by (apply D; split; assumption). destruct Ac as [A1 A2]. constructor; auto.
  intros path' Sp'. destruct (C path' Sp') as (path & Sp & Hm). destruct (V2 path Sp) as (x & d & P & l & fr & V).
  destruct (valid_at_trimmed e e' c c' m f f' s path path' x d P l fr A Hm (N _ _ Sp Sp' Hm) (Ho path') Ag (fun y n a b => U path' y n a b Sp') V) as (y & d' & l' & fr' & V' & _).
  exists y, d', P, l', fr'. exact V'.
Qed.
