(** Facts about the helpers of Base.v. *)
From Verif Require Export Base.
From Coq Require Export Lia.
From Coq Require Import NArith.
From Coq Require Import Sorting.Sorted.

Lemma NoDup_snoc {A} (l : list A) x : NoDup l -> ~ In x l -> NoDup (l ++ [x]).
Proof.
  induction l as [|y l IH]; cbn; intros N I.
  - constructor; auto.
  - inversion N; subst. constructor.
    + rewrite in_app_iff. cbn. intuition.
    + apply IH; auto.
Qed.

(** ** Strings *)
Lemma sapp_assoc a b c : (a +++ b) +++ c = a +++ (b +++ c).
Proof. induction a; cbn; congruence. Qed.
Lemma sapp_nil_r a : a +++ "" = a.
Proof. induction a; cbn; congruence. Qed.
Lemma sapp_inj_l a b c : a +++ b = a +++ c -> b = c.
Proof. induction a; cbn; intros H; [auto | inversion H; auto]. Qed.
Lemma slen_app a b : String.length (a +++ b) = String.length a + String.length b.
Proof. induction a; cbn; congruence. Qed.
Lemma sapp_inj_r a b c : a +++ c = b +++ c -> a = b.
Proof.
  revert b; induction a as [|x a IH]; intros [|y b] H; cbn in *; auto.
  - apply (f_equal String.length) in H. cbn in H. rewrite slen_app in H. lia.
  - apply (f_equal String.length) in H. cbn in H. rewrite slen_app in H. lia.
  - inversion H; subst. f_equal. auto.
Qed.

Lemma strip_prefix_app p s : strip_prefix p (p +++ s) = Some s.
Proof. induction p; cbn; auto. rewrite Ascii.eqb_refl. auto. Qed.
Lemma strip_prefix_Some p s r : strip_prefix p s = Some r -> s = p +++ r.
Proof.
  revert s; induction p as [|a p IH]; intros s H; cbn in *.
  - congruence.
  - destruct s as [|b s]; try discriminate.
    destruct (Ascii.eqb a b) eqn:E; try discriminate.
    apply Ascii.eqb_eq in E; subst. f_equal. auto.
Qed.
Lemma starts_with_spec p s : starts_with p s = true <-> exists r, s = p +++ r.
Proof.
  unfold starts_with. split.
  - destruct (strip_prefix p s) eqn:E; try discriminate.
    intros _. apply strip_prefix_Some in E. eauto.
  - intros [r ->]. rewrite strip_prefix_app. auto.
Qed.

(** ** Equality classes *)
Class EqBOk (K : Type) `{EqB K} := eqb_ok : forall a b : K, eqb a b = true <-> a = b.
#[global] Instance EqBOk_string : EqBOk string.
Proof. intros a b. apply String.eqb_eq. Qed.
#[global] Instance EqBOk_pair {A B} `{EqBOk A} `{EqBOk B} : EqBOk (A * B).
Proof.
  intros [a b] [c d]. unfold eqb, EqB_pair; cbn. rewrite andb_true_iff, !eqb_ok.
  split; [intros [-> ->] | intros E; inversion E]; auto.
Qed.
Lemma eqb_rfl {K} `{EqBOk K} (k : K) : eqb k k = true.
Proof. apply eqb_ok. auto. Qed.
Lemma eqb_neq {K} `{EqBOk K} (a b : K) : eqb a b = false <-> a <> b.
Proof.
  destruct (eqb a b) eqn:E; split; intros; try congruence.
  - apply eqb_ok in E. contradiction.
  - intros ->. rewrite eqb_rfl in E. discriminate.
Qed.
Lemma eqb_dec {K} `{EqBOk K} (a b : K) : {a = b} + {a <> b}.
Proof. destruct (eqb a b) eqn:E; [left; apply eqb_ok | right; apply eqb_neq]; auto. Qed.

(** ** Association lists *)
Section Amap.
  Context {K V : Type} {HKe : EqB K} {HK : EqBOk K}.
  Implicit Types (m : amap K V).

  Lemma aget_aset_same k v m : aget k (aset k v m) = Some v.
  Proof.
    induction m as [|[k' v'] m IH]; cbn.
    - rewrite eqb_rfl. auto.
    - destruct (eqb k k') eqn:E; cbn; rewrite E; auto.
  Qed.
  Lemma aget_aset_other k k' v m : k' <> k -> aget k' (aset k v m) = aget k' m.
  Proof.
    intros N. induction m as [|[k2 v2] m IH]; cbn.
    - apply eqb_neq in N. rewrite N. auto.
    - destruct (eqb k k2) eqn:E; cbn.
      + apply eqb_ok in E. subst. apply eqb_neq in N. rewrite N. auto.
      + destruct (eqb k' k2); auto.
  Qed.
  Lemma aget_aset k k' v m : aget k' (aset k v m) = if eqb k' k then Some v else aget k' m.
  Proof.
    destruct (eqb k' k) eqn:E.
    - apply eqb_ok in E. subst. apply aget_aset_same.
    - apply eqb_neq in E. apply aget_aset_other. auto.
  Qed.
  Lemma aget_In k v m : aget k m = Some v -> In (k, v) m.
  Proof.
    induction m as [|[k' v'] m IH]; cbn; try discriminate.
    destruct (eqb k k') eqn:E; intros H.
    - apply eqb_ok in E. inversion H; subst. auto.
    - auto.
  Qed.
  Lemma aget_None k m : aget k m = None <-> ~ In k (akeys m).
  Proof.
    induction m as [|[k' v'] m IH]; cbn.
    - split; auto.
    - destruct (eqb k k') eqn:E.
      + apply eqb_ok in E. subst. split; [discriminate | intros N; exfalso; auto].
      + apply eqb_neq in E. rewrite IH. split; intros N; [intros [->|]; auto | tauto].
  Qed.
  Lemma aget_Some_key k v m : aget k m = Some v -> In k (akeys m).
  Proof. intros H. apply aget_In in H. apply (in_map fst) in H. auto. Qed.
  Lemma akeys_In_aget k m : In k (akeys m) -> exists v, aget k m = Some v.
  Proof.
    intros H. destruct (aget k m) eqn:E; eauto. apply aget_None in E. contradiction.
  Qed.
  Lemma In_aget k v m : NoDup (akeys m) -> In (k, v) m -> aget k m = Some v.
  Proof.
    induction m as [|[k' v'] m IH]; cbn; intros N H; [contradiction|].
    inversion N as [|? ? N1 N2]; subst. destruct H as [H|H].
    - inversion H; subst. rewrite eqb_rfl. auto.
    - destruct (eqb k k') eqn:E; auto.
      apply eqb_ok in E. subst. apply (in_map fst) in H. contradiction.
  Qed.
  Lemma akeys_aset k v m : akeys (aset k v m) = if amem k m then akeys m else akeys m ++ [k].
  Proof.
    unfold amem, akeys. induction m as [|[k' v'] m IH]; cbn; auto.
    destruct (eqb k k') eqn:E; cbn; auto.
    rewrite IH. destruct (aget k m); auto.
  Qed.
  Lemma NoDup_aset k v m : NoDup (akeys m) -> NoDup (akeys (aset k v m)).
  Proof.
    intros N. rewrite akeys_aset. unfold amem. destruct (aget k m) eqn:E; auto.
    apply aget_None in E. apply NoDup_snoc; auto.
  Qed.
  Lemma In_akeys_aset k k' v m : In k' (akeys (aset k v m)) <-> k' = k \/ In k' (akeys m).
  Proof.
    rewrite akeys_aset. unfold amem. destruct (aget k m) eqn:E.
    - apply aget_Some_key in E. split; auto. intros [->|]; auto.
    - rewrite in_app_iff. cbn. split; [intros [|[|[]]] | intros [|]]; auto.
  Qed.
  Lemma amem_spec k m : amem k m = true <-> In k (akeys m).
  Proof.
    unfold amem. destruct (aget k m) eqn:E.
    - apply aget_Some_key in E. split; auto.
    - apply aget_None in E. split; [discriminate|contradiction].
  Qed.
  Lemma aget_perm m m' : NoDup (akeys m) -> Permutation m m' -> forall k, aget k m = aget k m'.
  Proof.
    intros N Pm k. assert (N' : NoDup (akeys m')).
    { eapply Permutation_NoDup; [|exact N]. apply Permutation_map. auto. }
    destruct (aget k m) eqn:E.
    - symmetry. apply In_aget; auto. eapply Permutation_in; eauto. apply aget_In; auto.
    - symmetry. apply aget_None. apply aget_None in E. intros I. apply E.
      eapply Permutation_in; [apply Permutation_map, Permutation_sym; eauto | auto].
  Qed.
End Amap.

(** ** String sets *)
Lemma smem_spec x s : smem x s = true <-> In x s.
Proof.
  unfold smem. rewrite existsb_exists. split.
  - intros [y [I E]]. apply String.eqb_eq in E. subst. auto.
  - intros I. exists x. split; auto. apply String.eqb_refl.
Qed.
Lemma smem_false x s : smem x s = false <-> ~ In x s.
Proof. rewrite <- smem_spec. destruct (smem x s); split; congruence. Qed.
Lemma In_sadd x y s : In y (sadd x s) <-> y = x \/ In y s.
Proof.
  unfold sadd. destruct (smem x s) eqn:E.
  - apply smem_spec in E. split; auto. intros [->|]; auto.
  - rewrite in_app_iff. cbn. split; [intros [|[|[]]] | intros [|]]; auto.
Qed.
Lemma NoDup_sadd x s : NoDup s -> NoDup (sadd x s).
Proof.
  intros N. unfold sadd. destruct (smem x s) eqn:E; auto.
  apply smem_false in E. apply NoDup_snoc; auto.
Qed.
Lemma In_sunion y s t : In y (sunion s t) <-> In y s \/ In y t.
Proof.
  unfold sunion. revert s. induction t as [|x t IH]; intros s; cbn.
  - tauto.
  - rewrite IH, In_sadd. intuition.
Qed.
Lemma NoDup_sunion s t : NoDup s -> NoDup (sunion s t).
Proof.
  unfold sunion. revert s. induction t; intros s N; cbn; auto. apply IHt. apply NoDup_sadd; auto.
Qed.
Lemma sunion_nil_NoDup l : NoDup l -> sunion [] l = l.
Proof.
  unfold sunion. intros N.
  enough (forall acc, NoDup (acc ++ l) -> fold_left (fun a x => sadd x a) l acc = acc ++ l) as H.
  { apply (H []). auto. }
  clear N. induction l as [|x l IH]; intros acc N; cbn.
  - rewrite app_nil_r. auto.
  - assert (E : sadd x acc = acc ++ [x]).
    { unfold sadd. destruct (smem x acc) eqn:E; auto. apply smem_spec in E.
      apply NoDup_remove_2 in N. exfalso. apply N. apply in_or_app; auto. }
    rewrite E, IH; rewrite <- app_assoc; auto.
Qed.

(** ** Byte-wise string order *)
Lemma ascii_compare_eq a b : Ascii.compare a b = Eq <-> a = b.
Proof.
  unfold Ascii.compare. rewrite N.compare_eq_iff. split; [|congruence].
  intros H. apply (f_equal ascii_of_N) in H. rewrite !ascii_N_embedding in H. auto.
Qed.
Lemma ascii_compare_antisym a b : Ascii.compare a b = CompOpp (Ascii.compare b a).
Proof. unfold Ascii.compare. apply N.compare_antisym. Qed.
Lemma str_compare_eq a b : String.compare a b = Eq <-> a = b.
Proof.
  revert b. induction a as [|x a IH]; intros [|y b]; cbn; split; intros H; try congruence.
  - destruct (Ascii.compare x y) eqn:E; try discriminate.
    apply ascii_compare_eq in E. apply IH in H. congruence.
  - inversion H; subst. destruct (Ascii.compare y y) eqn:E.
    + apply IH. auto.
    + exfalso. assert (Ascii.compare y y = Eq) by (apply ascii_compare_eq; auto). congruence.
    + exfalso. assert (Ascii.compare y y = Eq) by (apply ascii_compare_eq; auto). congruence.
Qed.
Lemma str_compare_antisym a b : String.compare a b = CompOpp (String.compare b a).
Proof.
  revert b. induction a as [|x a IH]; intros [|y b]; cbn; auto.
  rewrite (ascii_compare_antisym x y). destruct (Ascii.compare y x); cbn; auto.
Qed.
Lemma ascii_compare_trans_lt a b c :
  Ascii.compare a b = Lt -> Ascii.compare b c = Lt -> Ascii.compare a c = Lt.
Proof. unfold Ascii.compare. rewrite !N.compare_lt_iff. lia. Qed.
Lemma str_compare_trans_lt a b c :
  String.compare a b = Lt -> String.compare b c = Lt -> String.compare a c = Lt.
Proof.
  revert b c. induction a as [|x a IH]; intros [|y b] [|z c]; cbn; try congruence.
  destruct (Ascii.compare x y) eqn:E1; try discriminate; intros H1;
  destruct (Ascii.compare y z) eqn:E2; try discriminate; intros H2.
  - apply ascii_compare_eq in E1. apply ascii_compare_eq in E2. subst.
    assert (E : Ascii.compare z z = Eq) by (apply ascii_compare_eq; auto). rewrite E. eauto.
  - apply ascii_compare_eq in E1. subst. rewrite E2. auto.
  - apply ascii_compare_eq in E2. subst. rewrite E1. auto.
  - rewrite (ascii_compare_trans_lt _ _ _ E1 E2). auto.
Qed.

Lemma str_leb_refl a : str_leb a a = true.
Proof.
  unfold str_leb. destruct (String.compare a a) eqn:E; auto.
  assert (String.compare a a = Eq) by (apply str_compare_eq; auto). congruence.
Qed.
Lemma str_leb_total a b : str_leb a b = false -> str_leb b a = true.
Proof.
  unfold str_leb. rewrite (str_compare_antisym b a). destruct (String.compare a b); cbn; congruence.
Qed.
Lemma str_leb_antisym a b : str_leb a b = true -> str_leb b a = true -> a = b.
Proof.
  unfold str_leb. rewrite (str_compare_antisym b a). destruct (String.compare a b) eqn:E; cbn; try congruence.
  intros _ _. apply str_compare_eq. auto.
Qed.
Lemma str_leb_trans a b c : str_leb a b = true -> str_leb b c = true -> str_leb a c = true.
Proof.
  unfold str_leb.
  destruct (String.compare a b) eqn:E1; try congruence; intros _;
  destruct (String.compare b c) eqn:E2; try congruence; intros _.
  - apply str_compare_eq in E1, E2. subst.
    assert (E : String.compare c c = Eq) by (apply str_compare_eq; auto). rewrite E. auto.
  - apply str_compare_eq in E1. subst. rewrite E2. auto.
  - apply str_compare_eq in E2. subst. rewrite E1. auto.
  - rewrite (str_compare_trans_lt _ _ _ E1 E2). auto.
Qed.

(** ** Sorting *)
Section Sort.
  Context {A : Type} (key : A -> string).
  Definition le_key (x y : A) : Prop := str_leb (key x) (key y) = true.

  Lemma insert_by_perm x l : Permutation (x :: l) (insert_by key x l).
  Proof.
    induction l as [|y l IH]; cbn; auto.
    destruct (str_leb (key x) (key y)); auto.
    rewrite perm_swap. constructor. auto.
  Qed.
  Lemma sort_by_perm l : Permutation l (sort_by key l).
  Proof.
    induction l as [|x l IH]; cbn; auto.
    rewrite IH at 1. apply insert_by_perm.
  Qed.
  Lemma insert_by_sorted x l : StronglySorted le_key l -> StronglySorted le_key (insert_by key x l).
  Proof.
    induction l as [|y l IH]; intros S; cbn.
    - constructor; constructor.
    - inversion S as [|? ? S1 F1]; subst. destruct (str_leb (key x) (key y)) eqn:E.
      + constructor; auto. constructor; auto.
        rewrite Forall_forall in *. intros z I. eapply str_leb_trans; [exact E | apply F1; auto].
      + constructor; auto. rewrite Forall_forall in *. intros z I.
        apply (Permutation_in _ (Permutation_sym (insert_by_perm x l))) in I.
        destruct I as [->|I]; [apply str_leb_total; auto | auto].
  Qed.
  Lemma sort_by_sorted l : StronglySorted le_key (sort_by key l).
  Proof. induction l; cbn; [constructor | apply insert_by_sorted; auto]. Qed.

  (** Sorted permutations with distinct keys are equal *)
  Lemma sorted_perm_eq l l' :
    StronglySorted le_key l -> StronglySorted le_key l' -> NoDup (List.map key l) ->
    Permutation l l' -> l = l'.
  Proof.
    revert l'. induction l as [|x l IH]; intros l' S S' N Pm.
    - apply Permutation_nil in Pm. auto.
    - destruct l' as [|y l'].
      { apply Permutation_sym, Permutation_nil in Pm. discriminate. }
      inversion S as [|? ? S1 F1]; subst. inversion S' as [|? ? S1' F1']; subst.
      inversion N as [|? ? N1 N2]; subst.
      assert (x = y) as ->.
      { assert (Ix : In x (y :: l')) by (eapply Permutation_in; [eauto | left; auto]).
        assert (Iy : In y (x :: l)) by (eapply Permutation_in; [apply Permutation_sym; eauto | left; auto]).
        destruct Iy as [|Iy]; auto. destruct Ix as [->|Ix]; auto.
        rewrite Forall_forall in F1, F1'. specialize (F1 _ Iy). specialize (F1' _ Ix).
        assert (K : key x = key y) by (apply str_leb_antisym; auto).
        exfalso. apply N1. rewrite K. apply in_map. auto. }
      f_equal. apply IH; auto. eapply Permutation_cons_inv; eauto.
  Qed.
  Lemma sort_by_perm_eq l l' :
    NoDup (List.map key l) -> Permutation l l' -> sort_by key l = sort_by key l'.
  Proof.
    intros N Pm. apply sorted_perm_eq; try apply sort_by_sorted.
    - eapply Permutation_NoDup; [|exact N]. apply Permutation_map, sort_by_perm.
    - rewrite <- (sort_by_perm l), <- (sort_by_perm l'). auto.
  Qed.
End Sort.

(** Sorting plain strings gives one canonical list, duplicates or not *)
Lemma sorted_strings_eq l l' :
  StronglySorted (le_key (fun x => x)) l -> StronglySorted (le_key (fun x => x)) l' ->
  Permutation l l' -> l = l'.
Proof.
  revert l'. induction l as [|x l IH]; intros l' S S' Pm.
  - apply Permutation_nil in Pm. auto.
  - destruct l' as [|y l'].
    { apply Permutation_sym, Permutation_nil in Pm. discriminate. }
    inversion S as [|? ? S1 F1]; subst. inversion S' as [|? ? S1' F1']; subst.
    assert (x = y) as ->.
    { assert (Ix : In x (y :: l')) by (eapply Permutation_in; [eauto | left; auto]).
      assert (Iy : In y (x :: l)) by (eapply Permutation_in; [apply Permutation_sym; eauto | left; auto]).
      destruct Iy as [|Iy]; auto. destruct Ix as [->|Ix]; auto.
      rewrite Forall_forall in F1, F1'. specialize (F1 _ Iy). specialize (F1' _ Ix).
      apply str_leb_antisym; auto. }
    f_equal. apply IH; auto. eapply Permutation_cons_inv; eauto.
Qed.
Lemma sort_strings_perm_eq l l' :
  Permutation l l' -> sort_by (fun x => x) l = sort_by (fun x => x) l'.
Proof.
  intros Pm. apply sorted_strings_eq; try apply sort_by_sorted.
  rewrite <- (sort_by_perm _ l), <- (sort_by_perm _ l'). auto.
Qed.

(** ** Result lists *)
Lemma collect_res_Ok {E A} (l : list (res E A)) r :
  collect_res l = Ok r <-> l = List.map Ok r.
Proof.
  revert r. induction l as [|x l IH]; intros r; cbn.
  - split; intros H; [inversion H; auto | destruct r; [auto | discriminate]].
  - destruct x as [a|e].
    + destruct (collect_res l) as [r'|e] eqn:C.
      * split; intros H.
        -- inversion H; subst. cbn. f_equal. apply IH. auto.
        -- destruct r; cbn in H; inversion H; subst. do 2 f_equal.
           assert (Ok r' = Ok r) by (apply IH; auto). congruence.
      * split; [discriminate|]. intros H. destruct r; cbn in H; inversion H; subst.
        assert (@Err E (list A) e = Ok r) by (apply IH; auto). discriminate.
    + split; [discriminate|]. intros H. destruct r; discriminate.
Qed.
Lemma collect_res_Err {E A} (l : list (res E A)) e :
  collect_res l = Err e -> In (Err e) l.
Proof.
  induction l as [|x l IH]; cbn; try discriminate.
  destruct x as [a|e']; [destruct (collect_res l) eqn:C|]; intros H; inversion H; subst; auto.
Qed.

Lemma index_list_map_snd {A} (l : list A) : List.map snd (index_list l) = l.
Proof.
  unfold index_list. generalize 0. induction l as [|x l IH]; intros n; cbn; auto.
  rewrite IH. auto.
Qed.

(** ** Updating a list *)
Lemma Permutation_map_inv_NoDup {A} (l l' : list A) : Permutation l l' -> NoDup l -> NoDup l'.
Proof. intros. eapply Permutation_NoDup; eauto. Qed.
