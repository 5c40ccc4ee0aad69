(** Lemmas about projects whose files are in other places. *)
From Verif Require Export SpecMove.
From Verif Require Import RefactorFacts RecastFacts ProjectFacts BaseFacts.

Lemma respread_sym : (forall x y, respread eq x y -> respread eq y x) /\ (forall l m, respreads eq l m -> respreads eq m l).
Proof. apply (respread_mutind eq (fun x y _ => respread eq y x) (fun l m _ => respreads eq m l)); intros; constructor; auto. Qed.
Lemma restated_sym d d' : restated d d' -> restated d' d.
Proof.
  intros [H R]. split.
  - destruct d as [[]|], d' as [[]|]; cbn in *; try contradiction; auto.
    + destruct H as (A & B & C). repeat split; auto. apply same_vars_sym. exact C.
    + destruct H. auto.
  - inversion R; subst; constructor; auto; try (apply respread_sym; assumption).
    + tauto.
    + apply same_vars_sym. assumption.
Qed.
Lemma restated_text_sym e e' x y : restated_text e e' x y -> restated_text e' e y x.
Proof. unfold restated_text. destruct (env_parse e x), (env_parse e' y); auto. induction 1; constructor; auto. apply restated_sym. assumption. Qed.
Lemma moved_sym e e' c c' m f f' : moved_files e e' c c' m f f' -> moved_files e' e c' c (fun b a => m a b) f' f.
Proof.
  intros M b a H. specialize (M a b H). destruct (f (env_locate e a)), (f' (env_locate e' b)); auto. destruct M as (A & B & C & D).
  split; [apply restated_text_sym; exact A|]. split; [tauto|]. split; [exact D|exact C].
Qed.

Section Files.
Variables (e e' : env) (c c' : cconfig) (m : string -> string -> Prop) (f f' : fs).
Hypothesis M : moved_files e e' c c' m f f'.
Lemma moved_read a b x : m a b -> f (env_locate e a) = Ok x -> exists y, f' (env_locate e' b) = Ok y /\ moved_file e e' c c' m a x b y.
Proof. intros H E. specialize (M a b H). rewrite E in M. destruct (f' (env_locate e' b)) as [y|]; [|contradiction]. exists y. auto. Qed.
Lemma moved_texts a b x y : m a b -> f (env_locate e a) = Ok x -> f' (env_locate e' b) = Ok y -> moved_file e e' c c' m a x b y.
Proof. intros H E E'. specialize (M a b H). rewrite E, E' in M. exact M. Qed.

Lemma reach_moved a b x y t o : moved_file e e' c c' m a x b y -> reach e f c a x t o ->
  exists t' o', m t t' /\ moved_file e e' c c' m t o t' o' /\ reach e' f' c' b y t' o'.
Proof.
  intros K. induction 1 as [n l t o A E|mid mc n l t o R (mid' & mc' & Hm & Km & R') A E].
  - destruct (proj1 (proj2 (proj2 K)) _ _ _ A) as (n' & l' & t' & A' & Ht). destruct (moved_read _ _ _ Ht E) as (o' & E' & K').
    exists t', o'. split; [exact Ht|]. split; [exact K'|]. eapply reach_one; eauto.
  - destruct (proj1 (proj2 (proj2 Km)) _ _ _ A) as (n' & l' & t' & A' & Ht). destruct (moved_read _ _ _ Ht E) as (o' & E' & K').
    exists t', o'. split; [exact Ht|]. split; [exact K'|]. eapply reach_more; eauto.
Qed.
Lemma importer_moved a b x y F C : moved_file e e' c c' m a x b y -> importer e f c a x F C ->
  exists F' C', moved_file e e' c c' m F C F' C' /\ importer e' f' c' b y F' C'.
Proof.
  intros K [[-> ->]|R]; [exists b, y; split; [exact K|left; auto]|]. destruct (reach_moved _ _ _ _ _ _ K R) as (t' & o' & _ & K' & R'). exists t', o'. split; [exact K'|right; exact R'].
Qed.
Lemma brought_moved a b x y n fd : moved_file e e' c c' m a x b y -> brought e f c a x n fd ->
  exists fd', fr_cond fd' = fr_cond fd /\ respreads eq (fr_sels fd) (fr_sels fd') /\ brought e' f' c' b y n fd'.
Proof.
  intros K (t & o & R & H & <-). destruct (reach_moved _ _ _ _ _ _ K R) as (t' & o' & _ & (T & _) & R'). unfold holds_fragment in H. unfold restated_text in T. rewrite H in T.
  destruct (env_parse e' o') as [ds|] eqn:Ed; [|contradiction]. inversion T as [|? d ? ? Rt F]; subst. inversion F; subst. destruct Rt as [_ Rt].
  inversion Rt as [| |? d' Gn Ec Rs]; subst. exists d'. split; [exact Ec|]. split; [exact Rs|]. exists t', o'. auto.
Qed.
Lemma operation_moved a b x y : moved_file e e' c c' m a x b y -> holds_operation e x -> holds_operation e' y.
Proof.
  intros (T & _) (op & E). unfold restated_text in T. rewrite E in T. unfold holds_operation. destruct (env_parse e' y) as [ds|]; [|contradiction].
  inversion T as [|? d ? ? [_ Rt] F]; subst. inversion F; subst. inversion Rt; subst; eauto.
Qed.
End Files.

Section Moved.
Variables (e e' : env) (c c' : cconfig) (m : string -> string -> Prop) (f f' : fs).
Hypothesis M : moved_files e e' c c' m f f'.
Let M' := moved_sym e e' c c' m f f' M.

Lemma moved_file_sym a b x y : moved_file e e' c c' m a x b y -> moved_file e' e c' c (fun b a => m a b) b y a x.
Proof. intros (A & B & C & D). split; [apply restated_text_sym; exact A|]. split; [tauto|]. split; [exact D|exact C]. Qed.

Lemma acyclic_moved a : acyclic e f c a -> forall b, m a b -> acyclic e' f' c' b.
Proof.
  unfold acyclic. induction 1 as [a _ IH]. intros b H. constructor. intros t' (y & n & l & o' & Ey & A & Eo).
  destruct (moved_read _ _ _ _ _ _ _ M' b a y H Ey) as (x & Ex & K). destruct (proj1 (proj2 (proj2 K)) _ _ _ A) as (n0 & l0 & t & A0 & Ht). cbn beta in Ht.
  destruct (moved_read _ _ _ _ _ _ _ M' t' t o' Ht Eo) as (o & E0 & _). apply (IH t); [|exact Ht]. exists x, n0, l0, o. auto.
Qed.

Variables (path path' x y : string).
Hypothesis Hm : m path path'.
Hypothesis Ex : f (env_locate e path) = Ok x.
Hypothesis Ey : f' (env_locate e' path') = Ok y.
Hypothesis uniq : forall n fd fd', brought e' f' c' path' y n fd -> brought e' f' c' path' y n fd' -> fd = fd'.
Variable fr : amap string fragdef.
Hypothesis Fr : forall n fd, aget n fr = Some fd <-> brought e f c path x n fd.
Lemma moved_fragments : exists fr', (forall n fd, aget n fr' = Some fd <-> brought e' f' c' path' y n fd) /\
  (forall n fd, aget n fr = Some fd -> exists fd', aget n fr' = Some fd' /\ fr_cond fd' = fr_cond fd /\ respreads eq (fr_sels fd) (fr_sels fd')).
Proof.
  pose proof (moved_texts _ _ _ _ _ _ _ M _ _ _ _ Hm Ex Ey) as K0.
  assert (K : forall l, exists fr', (forall n fd', In (n, fd') fr' -> brought e' f' c' path' y n fd') /\
    forall n fd, In (n, fd) l -> aget n fr = Some fd -> exists fd', In (n, fd') fr').
  { induction l as [|[n fd] l (fr' & A & B)]; [exists []; split; [intros ? ? []|intros ? ? []]|].
    destruct (aget n fr) as [fd0|] eqn:E.
    - apply Fr in E as Hb. destruct (brought_moved _ _ _ _ _ _ _ M _ _ _ _ _ _ K0 Hb) as (fd' & _ & _ & Hb'). exists ((n, fd') :: fr'). split.
      + intros a b [X|X]; [injection X as <- <-; exact Hb'|auto].
      + intros a b [X|X] Ea; [injection X as <- <-; exists fd'; left; reflexivity|].
        destruct (B a b X Ea) as (b' & I). exists b'. right. exact I.
    - exists fr'. split; auto. intros a b [X|X] Ea; [injection X as <- <-; congruence|eauto]. }
  destruct (K fr) as (fr' & Sound & Full).
  assert (Ag : forall n fd, aget n fr' = Some fd <-> brought e' f' c' path' y n fd).
  { intros n fd'. split; [intros E; apply Sound; apply aget_In; exact E|]. intros Hb.
    destruct (brought_moved _ _ _ _ _ _ _ M' _ _ _ _ _ _ (moved_file_sym _ _ _ _ K0) Hb) as (fd & _ & _ & Hb0). apply Fr in Hb0 as E0.
    destruct (Full n fd (aget_In _ _ _ E0) E0) as (fd2 & I2).
    destruct (aget n fr') as [z|] eqn:Ez.
    - apply aget_In, Sound in Ez. rewrite (uniq _ _ _ Ez Hb). reflexivity.
    - exfalso. apply (aget_None n fr') in Ez. apply Ez. apply (in_map fst) in I2. exact I2. }
  exists fr'. split; [exact Ag|]. intros n fd E. apply Fr in E. destruct (brought_moved _ _ _ _ _ _ _ M _ _ _ _ _ _ K0 E) as (fd' & Ec & Rs & Hb).
  exists fd'. split; [apply Ag; exact Hb|auto].
Qed.
End Moved.

(** What a valid source has become *)
Lemma valid_at_moved e e' c c' m f f' s path path' x d P l fr : moved_files e e' c c' m f f' -> m path path' ->
  (forall y n fd fd', f' (env_locate e' path') = Ok y -> brought e' f' c' path' y n fd -> brought e' f' c' path' y n fd' -> fd = fd') ->
  valid_at e f c s path x d P l fr ->
  exists y d' l' fr', valid_at e' f' c' s path' y d' P l' fr' /\ same_head d d' /\ recasts fr fr' l l'.
Proof.
  intros M Hm U [Ex Ep Ac Qu Fo Fg Br Ro Su Cp Ps Vs Va In0].
  destruct (moved_read _ _ _ _ _ _ _ M _ _ _ Hm Ex) as (y & Ey & K). pose proof (moved_file_sym _ _ _ _ _ _ _ _ _ K) as K'. pose proof (moved_sym _ _ _ _ _ _ _ M) as M'.
  pose proof (proj1 K) as T. unfold restated_text in T. rewrite Ep in T. destruct (env_parse e' y) as [ds|] eqn:Ed; [|contradiction].
  inversion T as [|? d' ? ? [Sh Rt] F]; subst. inversion F; subst. clear T F.
  destruct (head_matched _ _ _ _ _ Rt Ro) as (l' & Ro' & Rs).
  destruct (moved_fragments e e' c c' m f f' M path path' x y Hm Ex Ey (fun n a b => U y n a b Ey) fr Br) as (fr' & Br' & Rn).
  assert (Rc : recasts fr fr' l l').
  { refine (proj2 (respread_recasts s fr fr' eq _) P l Vs l' Rs). intros n n' fd E <-. exact (Rn n fd E). }
  exists y, d', l', fr'. split; [|auto]. constructor; auto.
  - eapply acyclic_moved; eauto.
  - intros F C I Uc. destruct (importer_moved _ _ _ _ _ _ _ M' _ _ _ _ _ _ K' I) as (F0 & C0 & T & I0). apply (Qu _ _ I0). apply (proj1 (proj2 T)). exact Uc.
  - intros F C n ln t I A. destruct (importer_moved _ _ _ _ _ _ _ M' _ _ _ _ _ _ K' I) as (F0 & C0 & T & I0).
    destruct (proj1 (proj2 (proj2 T)) _ _ _ A) as (n0 & l0 & t0 & A0 & Ht). cbn beta in Ht. destruct (Fo _ _ _ _ _ I0 A0) as (o & Eo).
    destruct (moved_read _ _ _ _ _ _ _ M _ _ _ Ht Eo) as (o' & Eo' & _). eauto.
  - intros t o' R Ho. destruct (reach_moved _ _ _ _ _ _ _ M' _ _ _ _ _ _ K' R) as (t0 & o & _ & T & R0). apply (Fg _ _ R0). exact (operation_moved _ _ _ _ _ _ _ _ _ T Ho).
  - rewrite (subscription_matched _ _ _ Rt). exact Su.
  - apply (proj2 (proj2 (recast_valid s fr fr') _ _ Rc) P Vs).
  - intros v' I. destruct (var_matched _ _ _ (vars_matched _ _ _ Rt) I) as (v & Iv & Ev). unfold good_var. rewrite <- Ev. apply Va. exact Iv.
  - intros z (v' & I & -> & Nb & Et). destruct (var_matched _ _ _ (vars_matched _ _ _ Rt) I) as (v & Iv & Ev). apply In0. exists v. rewrite Ev. auto.
Qed.

Lemma moved_project_sym e e' ls ls' c c' root root' m f f' : moved_project e e' ls ls' c c' root root' m f f' ->
  moved_project e' e ls' ls c' c root' root (fun b a => m a b) f' f.
Proof. intros [A B C D]. constructor; auto; [apply moved_sym; exact A|tauto]. Qed.
Lemma valid_moved e e' ls ls' c c' root root' m f f' s : moved_project e e' ls ls' c c' root root' m f f' -> unique_fragments e' ls' f' c' root' ->
  valid_project e ls f c s root -> valid_project e' ls' f' c' s root'.
Proof.
  intros [A B C D] U [V1 V2 V3]. assert (Ac : accessible e' ls' root') by (apply D; split; assumption). destruct Ac as [A1 A2]. constructor; auto.
  intros path' Sp'. destruct (C path' Sp') as (path & Sp & Hm). destruct (V2 path Sp) as (x & d & P & l & fr & V).
  destruct (valid_at_moved e e' c c' m f f' s path path' x d P l fr A Hm (fun y n a b => U path' y n a b Sp') V) as (y & d' & l' & fr' & V' & _).
  exists y, d', P, l', fr'. exact V'.
Qed.
