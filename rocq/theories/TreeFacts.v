(** The pool instantiated with qlc's work items. *)
From Verif Require Export SpecTree PoolMain ProcFacts.
From Coq Require Import Lia.

Lemma work_eq : forall x y : work, {x = y} + {x <> y}.
Proof. decide equality; apply string_dec. Qed.

Lemma scan_readable dir es acc :
  match scan_entries dir es acc with
  | Ok l => exists ds, readable es = Some ds /\ l = acc ++ flat_map (entry_work dir) ds
  | Err _ => readable es = None
  end.
Proof.
  revert acc. induction es as [|[d|e] es IH]; intros acc; cbn [scan_entries readable]; auto.
  - exists []. rewrite app_nil_r. auto.
  - destruct (de_kind d) as [k|e]; auto.
    assert (K : forall w, (w = entry_work dir (de_name d, k)) ->
      match scan_entries dir es (acc ++ w) with
      | Ok l => exists ds, match readable es with Some l => Some ((de_name d, k) :: l) | None => None end = Some ds /\
                           l = acc ++ flat_map (entry_work dir) ds
      | Err _ => match readable es with Some l => Some ((de_name d, k) :: l) | None => None end = None
      end).
    { intros w ->. specialize (IH (acc ++ entry_work dir (de_name d, k))).
      destruct (scan_entries dir es (acc ++ entry_work dir (de_name d, k))).
      - destruct IH as (ds & -> & ->). eexists. split; [reflexivity|]. cbn [flat_map]. rewrite app_assoc. auto.
      - rewrite IH. auto. }
    destruct k.
    + apply K. reflexivity.
    + unfold entry_work in K. cbn [fst snd] in K.
      destruct (path_extension (path_join dir (de_name d))) as [ext|].
      * destruct (String.eqb ext "graphql"); [apply K; auto|].
        specialize (K [] eq_refl). rewrite app_nil_r in K. exact K.
      * specialize (K [] eq_refl). rewrite app_nil_r in K. exact K.
    + specialize (K [] eq_refl). rewrite app_nil_r in K. exact K.
Qed.

Lemma run_work_kids fuel e ls c s x f f' ch r :
  run_work fuel e ls c s x f = Done (f', ch, r) -> ch = dir_kids ls x.
Proof.
  destruct x as [p|d]; cbn [run_work dir_kids].
  - destruct (compile_file fuel e f c s p) as [[f2 [r2|ms]]| |]; intros H; inversion H; auto.
  - unfold run_dir_entry. destruct (ls d) as [es|err]; [|intros H; inversion H; auto].
    pose proof (scan_readable d es []) as S. destruct (scan_entries d es []) as [l|err].
    + destruct S as (ds & -> & ->). intros H; inversion H; auto.
    + rewrite S. intros H; inversion H; auto.
Qed.

Section Instance.
  Variables (fuel : nat) (e : env) (ls : listing) (c : cconfig) (s : schema) (root : string) (f : fs) (n : nat).
  Notation run := (run_work fuel e ls c s).
  Notation final sched := (steps run n (start n (WDir root) f) sched).
  Notation K := (run_work_kids fuel e ls c s).

  Lemma tree_positions sched :
    exists ps, NoDup ps /\ Forall2 (in_tree ls root) ps (completed (final sched)) /\
      (queued (ps_queue (final sched)) = [] -> pool_status (final sched) = AllReturned ->
       forall p x, in_tree ls root p x -> In p ps) /\
      (forall x, In x (queued (ps_queue (final sched))) -> exists p, in_tree ls root p x /\ ~ In p ps).
  Proof.
    destruct (at_most_once work_eq run n (dir_kids ls) K (WDir root) f sched) as (ps & H1 & H2 & H3 & H4).
    exists ps. split; auto. split; auto. split; auto. intros Q E.
    destruct (returned_hands _ E) as (A & B & _). apply H3; auto.
  Qed.

  Lemma tree_gsize : finite (dir_kids ls) (WDir root) -> tree_completes run ls root ->
    exists m, gsize run (dir_kids ls) (WDir root) m.
  Proof. intros F T. apply finite_gsize; auto. Qed.
End Instance.
