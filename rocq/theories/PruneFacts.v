(** Lemmas about projects with fewer source files. *)
From Verif Require Export SpecPrune.
From Verif Require Import TrimFacts MoveFacts RefactorFacts RecastFacts ProjectFacts BaseFacts.
From Coq Require Import Sorted.

Lemma valid_pruned e e' ls ls' c c' root root' m f f' s : pruned_project e e' ls ls' c c' root root' m f f' ->
  (forall p, order_ok (env_order e' p)) -> paths_agree e' f' -> unique_fragments e' ls' f' c' root' ->
  valid_project e ls f c s root -> valid_project e' ls' f' c' s root'.
Proof.
  intros [A N C D] Ho Ag U [V1 V2 V3]. assert (Ac : accessible e' ls' root') by (apply D; split; assumption). destruct Ac as [A1 A2]. constructor; auto.
  intros path' Sp'. destruct (C path' Sp') as (path & Sp & Hm). destruct (V2 path Sp) as (x & d & P & l & fr & V).
  destruct (valid_at_trimmed e e' c c' m f f' s path path' x d P l fr A Hm (N _ _ Sp Sp' Hm) (Ho path') Ag (fun y n a b => U path' y n a b Sp') V) as (y & d' & l' & fr' & V' & _).
  exists y, d', P, l', fr'. exact V'.
Qed.

Lemma part_nil {A} (l : list A) : part_of [] l.
Proof. induction l; constructor; auto. Qed.
(** Of two sorted lists without repetitions the one is a part of the other if it is included *)
Lemma sorted_part {A} (key : A -> string) l : forall l', sorted_by key l -> sorted_by key l' -> NoDup (List.map key l) -> NoDup (List.map key l') -> incl l' l -> part_of l' l.
Proof.
  induction l as [|x l IH]; intros l' S S' N N' I.
  - destruct l' as [|y l']; [constructor|]. destruct (I y (or_introl eq_refl)).
  - destruct l' as [|y l']; [apply part_nil|]. inversion S as [|? ? S1 F]; subst. inversion S' as [|? ? S1' F']; subst. inversion N as [|? ? N1 N2]; subst. inversion N' as [|? ? N1' N2']; subst.
    rewrite Forall_forall in F, F'. destruct (I y (or_introl eq_refl)) as [->|Iy].
    + apply po_take. apply IH; auto. intros z Iz. destruct (I z (or_intror Iz)) as [->|X]; [|exact X]. destruct N1'. apply in_map. exact Iz.
    + apply po_skip. apply IH; auto. intros z Iz. destruct (I z Iz) as [->|X]; [|exact X]. exfalso.
      destruct Iz as [->|Iz]; [apply N1, in_map; exact Iy|]. pose proof (F _ Iy) as A1. pose proof (F' _ Iz) as A2. cbn beta in A1, A2.
      apply N1. assert (E : key z = key y) by (apply str_leb_antisym; assumption). rewrite E. apply in_map. exact Iy.
Qed.
Lemma part_in {A} (l' l : list A) x : part_of l' l -> In x l' -> In x l.
Proof. induction 1; cbn; intuition. Qed.
Lemma part_images {A B} (R R' : A -> B -> Prop) l' l : part_of l' l -> forall ds ds', Forall2 R l ds -> Forall2 R' l' ds' ->
  (forall x d d', In x l -> R x d -> R' x d' -> d' = d) -> part_of ds' ds.
Proof.
  induction 1 as [|x l l' P IH|x l l' P IH]; intros ds ds' F F' U.
  - inversion F; inversion F'; subst. constructor.
  - inversion F; subst. apply po_skip. apply IH; auto. intros z e1 e2 I. apply U. right. exact I.
  - inversion F; inversion F'; subst. match goal with X : R x ?d, Y : R' x ?d' |- _ => rewrite (U x d d' (or_introl eq_refl) X Y) end.
    apply po_take. apply IH; auto. intros z e1 e2 I. apply U. right. exact I.
Qed.
