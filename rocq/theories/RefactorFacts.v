(** Lemmas about projects whose operations and fragments have got other names. *)
From Verif Require Export SpecRefactor.
From Verif Require Import RecastFacts ProjectFacts.
From Verif Require SpecAgain.

Scheme respread_ind2 := Induction for respread Sort Prop
  with respreads_ind2 := Induction for respreads Sort Prop.
Combined Scheme respread_mutind from respread_ind2, respreads_ind2.

Definition flip (G : string -> string -> Prop) : string -> string -> Prop := fun b a => G a b.
Lemma one_flip G : one_to_one G -> one_to_one (flip G).
Proof. intros [A B]. split; unfold flip; eauto. Qed.
Lemma respread_flip G : (forall x y, respread G x y -> respread (flip G) y x) /\ (forall l m, respreads G l m -> respreads (flip G) m l).
Proof. apply (respread_mutind G (fun x y _ => respread (flip G) y x) (fun l m _ => respreads (flip G) m l)); intros; constructor; auto. Qed.
Lemma same_vars_sym v w : same_vars v w -> same_vars w v.
Proof. unfold same_vars. induction 1 as [|x y l m [A B] F IH]; constructor; auto. Qed.
Lemma retitled_flip G d d' : retitled G d d' -> retitled (flip G) d' d.
Proof.
  intros H. inversion H; subst; constructor; auto; try (apply respread_flip; assumption).
  - tauto.
  - apply same_vars_sym. assumption.
Qed.
Lemma text_flip e G x y : retitled_text e G x y -> retitled_text e (flip G) y x.
Proof.
  intros [A B]. split; [intros n r; symmetry; apply A|]. destruct (env_parse e x) as [ds|], (env_parse e y) as [ds'|]; auto.
  induction B; constructor; auto. apply retitled_flip. assumption.
Qed.

(** ** Import lines *)
Lemma imports_same c file x y n l t : same_import_lines x y -> imports_at c file x n l t -> imports_at c file y n l t.
Proof.
  intros S (q & Ld & Ni & R). exists q. split; [|auto]. destruct Ni as (rest & E & _). subst l. apply S. exact Ld.
Qed.
Lemma unclosed_same x y : same_import_lines x y -> unclosed_import x -> unclosed_import y.
Proof. intros S (n & l & Ld & U). exists n, l. split; [|exact U]. destruct U as (rest & -> & _). apply S. exact Ld. Qed.
Lemma same_lines_sym x y : same_import_lines x y -> same_import_lines y x.
Proof. intros S n r. symmetry. apply S. Qed.

(** ** One source *)
Section Source.
Variables (e : env) (c : cconfig) (G : string -> string -> Prop) (f f' : fs) (path : string).
Definition matched (l : string) : Prop :=
  match f l, f' l with Ok x, Ok y => retitled_text e G x y | Err _, Err _ => True | _, _ => False end.
Hypothesis M : forall l, SpecFs.reads e f c path l -> matched l.
Variables (x y : string).
Hypothesis Ex : f (env_locate e path) = Ok x.
Hypothesis Ey : f' (env_locate e path) = Ok y.
Lemma texts_self : retitled_text e G x y.
Proof. pose proof (M _ (SpecFs.reads_self e f c path)) as K. unfold matched in K. rewrite Ex, Ey in K. exact K. Qed.

Lemma reach_matched t o : reach e f c path x t o -> exists o', f' (env_locate e t) = Ok o' /\ retitled_text e G o o' /\ reach e f' c path y t o'.
Proof.
  induction 1 as [n l t o A E|mid mc n l t o R (mc' & Em & Tm & R') A E].
  - pose proof (M _ (SpecFs.reads_import e f c path x path x n l t Ex (or_introl (conj eq_refl eq_refl)) A)) as K. unfold matched in K. rewrite E in K.
    destruct (f' (env_locate e t)) as [o'|] eqn:E'; [|contradiction]. exists o'. split; auto. split; auto.
    eapply reach_one; [|exact E']. eapply imports_same; [apply texts_self|exact A].
  - pose proof (M _ (SpecFs.reads_import e f c path x mid mc n l t Ex (or_intror R) A)) as K. unfold matched in K. rewrite E in K.
    destruct (f' (env_locate e t)) as [o'|] eqn:E'; [|contradiction]. exists o'. split; auto. split; auto.
    eapply reach_more; [exact R'| |exact E']. eapply imports_same; [apply (proj1 Tm)|exact A].
Qed.
Lemma reach_matched' t o' : reach e f' c path y t o' -> exists o, f (env_locate e t) = Ok o /\ retitled_text e G o o' /\ reach e f c path x t o.
Proof.
  induction 1 as [n l t o' A E|mid mc' n l t o' R (mc & Em & Tm & R') A E].
  - assert (A' : imports_at c path x n l t) by (eapply imports_same; [apply same_lines_sym, (proj1 texts_self)|exact A]).
    pose proof (M _ (SpecFs.reads_import e f c path x path x n l t Ex (or_introl (conj eq_refl eq_refl)) A')) as K. unfold matched in K. rewrite E in K.
    destruct (f (env_locate e t)) as [o|] eqn:E'; [|contradiction]. exists o. split; auto. split; auto. eapply reach_one; eauto.
  - assert (A' : imports_at c mid mc n l t) by (eapply imports_same; [apply same_lines_sym, (proj1 Tm)|exact A]).
    pose proof (M _ (SpecFs.reads_import e f c path x mid mc n l t Ex (or_intror R') A')) as K. unfold matched in K. rewrite E in K.
    destruct (f (env_locate e t)) as [o|] eqn:E'; [|contradiction]. exists o. split; auto. split; auto. eapply reach_more; eauto.
Qed.
Lemma importer_matched F C : importer e f c path x F C -> exists C', retitled_text e G C C' /\ importer e f' c path y F C'.
Proof.
  intros [[-> ->]|R]; [exists y; split; [exact texts_self|left; auto]|]. destruct (reach_matched _ _ R) as (o' & _ & T & R'). exists o'. split; [exact T|right; exact R'].
Qed.
Lemma importer_matched' F C' : importer e f' c path y F C' -> exists C, retitled_text e G C C' /\ importer e f c path x F C.
Proof.
  intros [[-> ->]|R]; [exists x; split; [exact texts_self|left; auto]|]. destruct (reach_matched' _ _ R) as (o' & _ & T & R'). exists o'. split; [exact T|right; exact R'].
Qed.
Lemma reads_matched l : SpecFs.reads e f' c path l -> SpecFs.reads e f c path l.
Proof.
  intros R. destruct R as [|z file C n l t Ez I A]; [constructor|]. rewrite Ey in Ez. injection Ez as <-.
  destruct (importer_matched' _ _ I) as (C0 & T & I0). eapply (SpecFs.reads_import e f c path x file C0 n l t Ex I0).
  eapply imports_same; [apply same_lines_sym, (proj1 T)|exact A].
Qed.
Lemma acyclic_matched : acyclic e f c path -> acyclic e f' c path.
Proof.
  intros A. unfold acyclic in *.
  assert (K : forall F, Acc (import_step e f c) F -> forall C, importer e f c path x F C -> f (env_locate e F) = Ok C -> Acc (import_step e f' c) F).
  { induction 1 as [F _ IH]. intros C I E. constructor. intros B (z & n & l & o' & Ez & At & Eo).
    destruct (importer_matched _ _ I) as (C' & T & I').
    assert (z = C'). { destruct I as [[-> ->]|R].
      - rewrite Ey in Ez. destruct I' as [[_ ->]|R']; [congruence|]. destruct (reach_matched' _ _ R') as (o & _ & _ & R0).
        assert (X : f' (env_locate e path) = Ok C') by (clear - R'; destruct R'; auto). congruence.
      - destruct (reach_matched _ _ R) as (o2 & E2 & _). destruct I' as [[-> ->]|R'].
        + congruence.
        + assert (X : f' (env_locate e F) = Ok C') by (clear - R'; destruct R'; auto). congruence. }
    subst z. assert (At' : imports_at c F C n l B) by (eapply imports_same; [apply same_lines_sym, (proj1 T)|exact At]).
    pose proof (M _ (SpecFs.reads_import e f c path x F C n l B Ex I At')) as K. unfold matched in K. rewrite Eo in K.
    destruct (f (env_locate e B)) as [o|] eqn:Eb; [|contradiction].
    apply (IH B) with (C := o); auto.
    - exists C, n, l, o. auto.
    - right. destruct I as [[-> ->]|R]; [eapply reach_one; eauto|eapply reach_more; eauto]. }
  apply (K path A x); [left; auto|exact Ex].
Qed.
Lemma brought_matched n fd : brought e f c path x n fd -> exists n' fd', G n n' /\ fr_cond fd' = fr_cond fd /\ respreads G (fr_sels fd) (fr_sels fd') /\ brought e f' c path y n' fd'.
Proof.
  intros (t & o & R & H & <-). destruct (reach_matched _ _ R) as (o' & _ & [_ T] & R'). unfold holds_fragment in H. rewrite H in T.
  destruct (env_parse e o') as [ds|] eqn:Ed; [|contradiction]. inversion T as [|? d ? ? Rt F]; subst. inversion F; subst. inversion Rt as [| |? d' Gn Ec Rs]; subst.
  exists (fr_name d'), d'. repeat split; auto. exists t, o'. auto.
Qed.
Lemma brought_matched' n' fd' : brought e f' c path y n' fd' -> exists n fd, G n n' /\ fr_cond fd' = fr_cond fd /\ respreads G (fr_sels fd) (fr_sels fd') /\ brought e f c path x n fd.
Proof.
  intros (t & o' & R & H & <-). destruct (reach_matched' _ _ R) as (o & _ & [_ T] & R'). unfold holds_fragment in H. rewrite H in T.
  destruct (env_parse e o) as [ds|] eqn:Ed; [|contradiction]. inversion T as [|d ? ? ? Rt F]; subst. inversion F; subst. inversion Rt as [| |d0 ? Gn Ec Rs]; subst.
  exists (fr_name d0), d0. repeat split; auto. exists t, o. auto.
Qed.

(** *** The fragments *)
Hypothesis oto : one_to_one G.
Hypothesis uniq : forall n fd fd', brought e f' c path y n fd -> brought e f' c path y n fd' -> fd = fd'.
Variable fr : amap string fragdef.
Hypothesis Fr : forall n fd, aget n fr = Some fd <-> brought e f c path x n fd.
Lemma new_fragments : exists fr', (forall n fd, aget n fr' = Some fd <-> brought e f' c path y n fd) /\
  (forall n n' fd, aget n fr = Some fd -> G n n' -> exists fd', aget n' fr' = Some fd' /\ fr_cond fd' = fr_cond fd /\ respreads G (fr_sels fd) (fr_sels fd')).
Proof.
  assert (B : exists fr', (forall n' fd', In (n', fd') fr' -> brought e f' c path y n' fd') /\
    forall n fd, In (n, fd) fr -> aget n fr = Some fd -> exists n' fd', G n n' /\ In (n', fd') fr').
  { assert (K : forall l, exists fr', (forall n' fd', In (n', fd') fr' -> brought e f' c path y n' fd') /\
      forall n fd, In (n, fd) l -> aget n fr = Some fd -> exists n' fd', G n n' /\ In (n', fd') fr').
    { induction l as [|[n fd] l (fr' & A & B)]; [exists []; split; [intros ? ? []|intros ? ? []]|].
      destruct (aget n fr) as [fd0|] eqn:E.
      - apply Fr in E as Hb. destruct (brought_matched _ _ Hb) as (n' & fd' & Gn & _ & _ & Hb'). exists ((n', fd') :: fr'). split.
        + intros a b [X|X]; [injection X as <- <-; exact Hb'|auto].
        + intros a b [X|X] Ea; [injection X as <- <-; exists n', fd'; split; [exact Gn|left; reflexivity]|].
          destruct (B a b X Ea) as (a' & b' & Ga & I). exists a', b'. split; [exact Ga|right; exact I].
      - exists fr'. split; auto. intros a b [X|X] Ea; [injection X as <- <-; congruence|eauto]. }
    apply K. }
  destruct B as (fr' & Sound & Full).
  assert (Ag : forall n fd, aget n fr' = Some fd <-> brought e f' c path y n fd).
  { intros n' fd'. split; [intros E; apply Sound; apply aget_In; exact E|]. intros Hb.
    destruct (brought_matched' _ _ Hb) as (n & fd & Gn & _ & _ & Hb0). apply Fr in Hb0 as E0.
    destruct (Full n fd (aget_In _ _ _ E0) E0) as (n2 & fd2 & Gn2 & I2). rewrite (proj1 oto _ _ _ Gn2 Gn) in I2.
    destruct (aget n' fr') as [z|] eqn:Ez.
    - apply aget_In, Sound in Ez. rewrite (uniq _ _ _ Ez Hb). reflexivity.
    - exfalso. apply (aget_None n' fr') in Ez. apply Ez. apply (in_map fst) in I2. exact I2. }
  exists fr'. split; [exact Ag|]. intros n n' fd E Gn. apply Fr in E. destruct (brought_matched _ _ E) as (n2 & fd' & Gn2 & Ec & Rs & Hb).
  rewrite (proj1 oto _ _ _ Gn2 Gn) in Hb. exists fd'. split; [apply Ag; exact Hb|auto].
Qed.
End Source.

(** ** Selections *)
Lemma respread_recasts s fr fr' (G : string -> string -> Prop) :
  (forall n n' fd, aget n fr = Some fd -> G n n' -> exists fd', aget n' fr' = Some fd' /\ fr_cond fd' = fr_cond fd /\ respreads G (fr_sels fd) (fr_sels fd')) ->
  (forall P x, valid_sel s fr P x -> forall x', respread G x x' -> recast fr fr' x x') /\
  (forall P l, valid_sels s fr P l -> forall l', respreads G l l' -> recasts fr fr' l l').
Proof.
  intros Rn. apply (valid_mutind s fr (fun P x _ => forall x', respread G x x' -> recast fr fr' x x') (fun P l _ => forall l', respreads G l l' -> recasts fr fr' l l')).
  - intros. inversion H; subst. constructor; auto. match goal with K : respreads _ [] _ |- _ => inversion K; subst end. constructor.
  - intros. match goal with K : respread _ _ _ |- _ => inversion K; subst end. constructor; auto.
  - intros. match goal with K : respread _ _ _ |- _ => inversion K; subst end. eapply rc_narrow; [constructor|constructor|auto].
  - intros P p name d fd Af _ _ IH x' H. inversion H as [|? ? ? p' n' d' Gn|]; subst. destruct (Rn _ _ _ Af Gn) as (fd' & Af' & Ec & Es).
    eapply rc_narrow; [apply nw_spread; exact Af| |apply IH; exact Es]. rewrite <- Ec. apply nw_spread. exact Af'.
  - intros P l' H. inversion H; subst. constructor.
  - intros P x l V IHx Vs IHl l' H. inversion H; subst. constructor; auto.
Qed.

(** ** Documents *)
Lemma head_matched G d d' P l : retitled G d d' -> doc_root d = Some (P, l) -> exists l', doc_root d' = Some (P, l') /\ respreads G l l'.
Proof.
  intros H E. inversion H as [|k p n vs ds m p' n' vs' ds' m' En Sv Rs|a b Gn Ec Rs]; subst; cbn [doc_root] in *; try discriminate; injection E as <- <-.
  - exists m'. auto.
  - exists (fr_sels b). rewrite Ec. auto.
Qed.
Lemma subscription_matched G d d' : retitled G d d' -> is_subscription d' = is_subscription d.
Proof. intros H. inversion H; subst; reflexivity. Qed.
Lemma vars_matched G d d' : retitled G d d' -> same_vars (doc_vars d) (doc_vars d').
Proof. intros H. inversion H; subst; cbn [doc_vars]; auto; constructor. Qed.
Lemma var_matched vs vs' v' : same_vars vs vs' -> In v' vs' -> exists v, In v vs /\ vgtype v = vgtype v'.
Proof.
  intros F. induction F as [|a b l m [A B] F IH]; intros [].
  - subst. exists a. split; [left; reflexivity|]. unfold vgtype. rewrite B. reflexivity.
  - destruct (IH H) as (v & I & E). exists v. split; [right; exact I|exact E].
Qed.

Section Project.
Variables (e : env) (ls : listing) (c : cconfig) (root : string) (G : string -> string -> Prop) (f f' : fs) (s : schema).
Hypothesis oto : one_to_one G.
Hypothesis M : retitled_files e ls c root G f f'.
Lemma matched_source path : is_source ls root path -> forall l, SpecFs.reads e f c path l -> matched e G f f' l.
Proof. intros Sp l R. exact (M path l Sp R). Qed.
Lemma source_text path x : is_source ls root path -> f (env_locate e path) = Ok x -> exists y, f' (env_locate e path) = Ok y /\ retitled_text e G x y.
Proof.
  intros Sp E. pose proof (M path _ Sp (SpecFs.reads_self e f c path)) as K. rewrite E in K. destruct (f' (env_locate e path)) as [y|]; [|contradiction]. exists y. auto.
Qed.
Lemma source_text' path y : is_source ls root path -> f' (env_locate e path) = Ok y -> exists x, f (env_locate e path) = Ok x /\ retitled_text e G x y.
Proof.
  intros Sp E. pose proof (M path _ Sp (SpecFs.reads_self e f c path)) as K. rewrite E in K. destruct (f (env_locate e path)) as [x|]; [|contradiction]. exists x. auto.
Qed.
Lemma reads_project path l : is_source ls root path -> SpecFs.reads e f' c path l -> SpecFs.reads e f c path l.
Proof.
  intros Sp R. destruct R as [|y F C n l t Ey I A]; [constructor|]. destruct (source_text' path y Sp Ey) as (x & Ex & _).
  eapply (reads_matched e c G f f' path (matched_source path Sp) x y Ex Ey). eapply SpecFs.reads_import; eauto.
Qed.
Lemma files_flip : retitled_files e ls c root (flip G) f' f.
Proof.
  intros path l Sp R. apply reads_project in R; auto. pose proof (M path l Sp R) as K. destruct (f l), (f' l); auto. apply text_flip. exact K.
Qed.
Lemma separate_matched : separate e ls c root f -> separate e ls c root f'.
Proof. intros [A B]. split; auto. intros x y l Sx Sy R. apply (A x y l Sx Sy). apply reads_project; auto. Qed.
Lemma contained_matched : (forall path contents t o, is_source ls root path -> f (env_locate e path) = Ok contents -> reach e f c path contents t o -> is_source ls root t) ->
  forall path contents t o, is_source ls root path -> f' (env_locate e path) = Ok contents -> reach e f' c path contents t o -> is_source ls root t.
Proof.
  intros H path y t o Sp Ey R. destruct (source_text' path y Sp Ey) as (x & Ex & _).
  destruct (reach_matched' e c G f f' path (matched_source path Sp) x y Ex Ey _ _ R) as (o0 & _ & _ & R0). eauto.
Qed.
Lemma inside_matched : imports_inside e ls f c root -> imports_inside e ls f' c root.
Proof.
  intros H path y t o Sp Ey R. destruct (source_text' path y Sp Ey) as (x & Ex & _).
  destruct (reach_matched' e c G f f' path (matched_source path Sp) x y Ex Ey _ _ R) as (o0 & _ & _ & R0). eauto.
Qed.
Lemma queries_matched : (forall path contents d, is_source ls root path -> f (env_locate e path) = Ok contents -> env_parse e contents = Ok [d] -> is_subscription d = false) ->
  forall path contents d, is_source ls root path -> f' (env_locate e path) = Ok contents -> env_parse e contents = Ok [d] -> is_subscription d = false.
Proof.
  intros H path y d Sp Ey Ed. destruct (source_text' path y Sp Ey) as (x & Ex & _ & T). rewrite Ed in T. destruct (env_parse e x) as [ds|] eqn:Ep; [|contradiction].
  inversion T as [|d0 ? ? ? Rt F]; subst. inversion F; subst. rewrite (subscription_matched _ _ _ Rt). eauto.
Qed.

Hypothesis uniq : unique_fragments e ls f' c root.
(** What a valid source has become *)
Lemma valid_at_matched path x d P l fr : is_source ls root path -> valid_at e f c s path x d P l fr ->
  exists y d' l' fr', valid_at e f' c s path y d' P l' fr' /\ retitled G d d' /\ respreads G l l' /\
    (forall n n' fd, aget n fr = Some fd -> G n n' -> exists fd', aget n' fr' = Some fd' /\ fr_cond fd' = fr_cond fd /\ respreads G (fr_sels fd) (fr_sels fd')).
Proof.
  intros Sp [Ex Ep Ac Qu Fo Fg Br Ro Su Cp Ps Vs Va In0].
  destruct (source_text path x Sp Ex) as (y & Ey & Ls & T). rewrite Ep in T. destruct (env_parse e y) as [ds|] eqn:Ed; [|contradiction].
  inversion T as [|? d' ? ? Rt F]; subst. inversion F; subst. clear T F.
  pose proof (matched_source path Sp) as Mp.
  destruct (head_matched _ _ _ _ _ Rt Ro) as (l' & Ro' & Rs).
  destruct (new_fragments e c G f f' path Mp x y Ex Ey oto (fun n a b => uniq path y n a b Sp Ey) fr Br) as (fr' & Br' & Rn).
  exists y, d', l', fr'. split; [|auto]. constructor; auto.
  - eapply acyclic_matched; eauto.
  - intros F C I U. destruct (importer_matched' e c G f f' path Mp x y Ex Ey _ _ I) as (C0 & T & I0). apply (Qu _ _ I0).
    eapply unclosed_same; [apply same_lines_sym, (proj1 T)|exact U].
  - intros F C n ln t I A. destruct (importer_matched' e c G f f' path Mp x y Ex Ey _ _ I) as (C0 & T & I0).
    assert (A0 : imports_at c F C0 n ln t) by (eapply imports_same; [apply same_lines_sym, (proj1 T)|exact A]).
    destruct (Fo _ _ _ _ _ I0 A0) as (o & Eo). pose proof (Mp _ (SpecFs.reads_import e f c path x F C0 n ln t Ex I0 A0)) as K. unfold matched in K. rewrite Eo in K.
    destruct (f' (env_locate e t)) as [o'|]; [eauto|contradiction].
  - intros t o' R (op & Eo). destruct (reach_matched' e c G f f' path Mp x y Ex Ey _ _ R) as (o & _ & [_ T] & R0). apply (Fg _ _ R0). unfold holds_operation.
    rewrite Eo in T. destruct (env_parse e o) as [ds|]; [|contradiction]. inversion T as [|d0 ? ? ? Rt0 F]; subst. inversion F; subst. inversion Rt0; subst; eauto.
  - rewrite (subscription_matched _ _ _ Rt). exact Su.
  - apply (proj2 (proj2 (recast_valid s fr fr') _ _ (proj2 (respread_recasts s fr fr' G Rn) P l Vs l' Rs)) P Vs).
  - intros v' I. destruct (var_matched _ _ _ (vars_matched _ _ _ Rt) I) as (v & Iv & Ev). unfold good_var. rewrite <- Ev. apply Va. exact Iv.
  - intros z (v' & I & -> & Nb & Et). destruct (var_matched _ _ _ (vars_matched _ _ _ Rt) I) as (v & Iv & Ev). apply In0. exists v. rewrite Ev. auto.
Qed.
Lemma valid_project_matched : valid_project e ls f c s root -> valid_project e ls f' c s root.
Proof.
  intros [A B C]. constructor; auto. intros path Sp. destruct (B path Sp) as (x & d & P & l & fr & V).
  destruct (valid_at_matched path x d P l fr Sp V) as (y & d' & l' & fr' & V' & _). exists y, d', P, l', fr'. exact V'.
Qed.
End Project.
