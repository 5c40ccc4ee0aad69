(** Facts about the worker pool: accounting of work items, at-most-once processing. *)
From Verif Require Export Pool BaseFacts SpecPool.
From Coq Require Import Lia.

Lemma nth_split_update {A} (l : list A) i x : nth_error l i = Some x ->
  exists l1 l2, l = l1 ++ x :: l2 /\ List.length l1 = i /\ forall y, update l i y = l1 ++ y :: l2.
Proof.
  revert i. induction l as [|a l IH]; intros [|i] H; cbn in H; try discriminate.
  - inversion H; subst. exists [], l. auto.
  - apply IH in H as (l1 & l2 & -> & L & E). exists (a :: l1), l2. cbn. repeat split; auto.
    intros y. rewrite E. auto.
Qed.
Lemma update_length {A} (l : list A) i x : List.length (update l i x) = List.length l.
Proof. revert i. induction l as [|a l IH]; intros [|i]; cbn; auto. Qed.

Lemma NoDup_app_l {A} (a b : list A) : NoDup (a ++ b) -> NoDup a.
Proof.
  induction a as [|x a IH]; cbn; intros H; [constructor|]. inversion H; subst. constructor; auto.
  intros I. apply H2, in_or_app. auto.
Qed.
Lemma NoDup_app_r {A} (a b : list A) : NoDup (a ++ b) -> NoDup b.
Proof. induction a as [|x a IH]; cbn; auto. intros H. inversion H; auto. Qed.

Section Trans.
  Context {W G R : Type}.
  Variable run : runner W G R.
  Variable n : nat.

  Definition mkw (p : pc W) (a b : bool) (l : list (W * list W * R)) : worker W R :=
    {| wk_pc := p; wk_waiting := a; wk_quitting := b; wk_log := l |}.

  (** The steps of one worker as a relation *)
  Inductive wtrans : worker W R -> list (msg W) -> nat -> nat -> G ->
                     worker W R -> list (msg W) -> nat -> nat -> G -> bool -> Prop :=
  | tr_empty a b l nw nq g : wtrans (mkw PTry a b l) [] nw nq g (mkw PErr1 a b l) [] nw nq g false
  | tr_work a b l x q nw nq g : wtrans (mkw PTry a b l) (MWork x :: q) nw nq g (mkw (PGot1 x) a b l) q nw nq g false
  | tr_quit a b l q nw nq g : wtrans (mkw PTry a b l) (MQuit :: q) nw nq g (mkw PQuit1 a b l) q nw nq g false
  | tr_got1 a b l x q nw nq g :
      wtrans (mkw (PGot1 x) a b l) q nw nq g (mkw (PGot2 x) false b l) q (set_flag a false nw) nq g false
  | tr_got2 a b l x q nw nq g :
      wtrans (mkw (PGot2 x) a b l) q nw nq g (mkw (PRun x) a false l) q nw (set_flag b false nq) g false
  | tr_run a b l x q nw nq g g' ch r : run x g = Done (g', ch, r) ->
      wtrans (mkw (PRun x) a b l) q nw nq g (mkw (PSend ch) a b (l ++ [(x, ch, r)])) q nw nq g' false
  | tr_panic a b l x q nw nq g : run x g = Panics ->
      wtrans (mkw (PRun x) a b l) q nw nq g (mkw PPanicked a b l) q nw nq g false
  | tr_diverge a b l x q nw nq g : run x g = Diverges ->
      wtrans (mkw (PRun x) a b l) q nw nq g (mkw (PRun x) a b l) q nw nq g true
  | tr_sent a b l q nw nq g : wtrans (mkw (PSend []) a b l) q nw nq g (mkw PTry a b l) q nw nq g false
  | tr_send a b l x xs q nw nq g :
      wtrans (mkw (PSend (x :: xs)) a b l) q nw nq g (mkw (PSend xs) a b l) (q ++ [MWork x]) nw nq g false
  | tr_quit1 a b l q nw nq g :
      wtrans (mkw PQuit1 a b l) q nw nq g (mkw PQuit2 true b l) q (set_flag a true nw) nq g false
  | tr_quit2 a b l q nw nq g :
      wtrans (mkw PQuit2 a b l) q nw nq g (mkw PLoadWait a true l) q nw (set_flag b true nq) g false
  | tr_loadwait a b l q nw nq g :
      wtrans (mkw PLoadWait a b l) q nw nq g (mkw (PLoadQuit nw) a b l) q nw nq g false
  | tr_break a b l k q nw nq g : k < n ->
      wtrans (mkw (PLoadQuit k) a b l) q nw nq g (mkw PTry a b l) q nw nq g false
  | tr_return a b l k q nw g : n <= k ->
      wtrans (mkw (PLoadQuit k) a b l) q nw n g (mkw PDone a b l) q nw n g false
  | tr_spin a b l k q nw nq g : n <= k -> nq <> n ->
      wtrans (mkw (PLoadQuit k) a b l) q nw nq g (mkw PLoadWait a b l) q nw nq g false
  | tr_err1 a b l q nw nq g :
      wtrans (mkw PErr1 a b l) q nw nq g (mkw PErr2 true b l) q (set_flag a true nw) nq g false
  | tr_err2 a b l q nw nq g :
      wtrans (mkw PErr2 a b l) q nw nq g (mkw PErr3 a false l) q nw (set_flag b false nq) g false
  | tr_all a b l q nq g :
      wtrans (mkw PErr3 a b l) q n nq g (mkw (PSendQuit n) a b l) q n nq g false
  | tr_notall a b l q nw nq g : nw <> n ->
      wtrans (mkw PErr3 a b l) q nw nq g (mkw PTry a b l) q nw nq g false
  | tr_quits a b l q nw nq g : wtrans (mkw (PSendQuit 0) a b l) q nw nq g (mkw PTry a b l) q nw nq g false
  | tr_sendquit a b l k q nw nq g :
      wtrans (mkw (PSendQuit (S k)) a b l) q nw nq g (mkw (PSendQuit k) a b l) (q ++ [MQuit]) nw nq g false
  | tr_done a b l q nw nq g : wtrans (mkw PDone a b l) q nw nq g (mkw PDone a b l) q nw nq g false
  | tr_panicked a b l q nw nq g : wtrans (mkw PPanicked a b l) q nw nq g (mkw PPanicked a b l) q nw nq g false.

  Lemma wstep_wtrans w q nw nq g :
    let '(w', q', nw', nq', g', ab) := wstep run n w q nw nq g in wtrans w q nw nq g w' q' nw' nq' g' ab.
  Proof.
    destruct w as [p a b l]. unfold wstep. cbn [wk_pc wk_waiting wk_quitting wk_log].
    destruct p as [ |x|x|x|xs| | | |k| | | |k| | ]; try constructor.
    - destruct q as [|[x|] q]; constructor.
    - destruct (run x g) as [[[g' ch] r]| |] eqn:E; constructor; auto.
    - destruct xs; constructor.
    - destruct (k <? n) eqn:E; [apply Nat.ltb_lt in E; constructor; auto|].
      apply Nat.ltb_ge in E. destruct (Nat.eqb nq n) eqn:E2.
      + apply Nat.eqb_eq in E2. subst nq. constructor; auto.
      + apply Nat.eqb_neq in E2. constructor; auto.
    - destruct (Nat.eqb nw n) eqn:E.
      + apply Nat.eqb_eq in E. subst nw. constructor.
      + apply Nat.eqb_neq in E. constructor; auto.
    - destruct k; constructor.
  Qed.

  Definition mkp q nw nq ws (g : G) ab : pool W G R :=
    {| ps_queue := q; ps_nwait := nw; ps_nquit := nq; ps_workers := ws; ps_ext := g; ps_aborted := ab |}.

  (** A step of the pool *)
  Lemma step_cases s i :
    step run n s i = s \/
    exists q nw nq l1 w l2 g w' q' nw' nq' g' ab,
      s = mkp q nw nq (l1 ++ w :: l2) g false /\ List.length l1 = i /\
      wtrans w q nw nq g w' q' nw' nq' g' ab /\
      step run n s i = mkp q' nw' nq' (l1 ++ w' :: l2) g' ab.
  Proof.
    unfold step. destruct (ps_aborted s) eqn:Ea; [auto|].
    destruct (nth_error (ps_workers s) i) as [w|] eqn:En; [|auto]. right.
    apply nth_split_update in En as (l1 & l2 & Ew & Hl & Eu).
    destruct s as [q nw nq ws g ab]. cbn [ps_workers ps_queue ps_nwait ps_nquit ps_ext ps_aborted] in *. subst ws ab.
    pose proof (wstep_wtrans w q nw nq g) as T.
    destruct (wstep run n w q nw nq g) as [[[[[w' q'] nw'] nq'] g'] ab'].
    exists q, nw, nq, l1, w, l2, g, w', q', nw', nq', g', ab'. rewrite Eu. auto.
  Qed.

  (** Invariants of reachable states *)
  Lemma steps_inv (P : pool W G R -> Prop) :
    (forall q nw nq l1 w l2 g w' q' nw' nq' g' ab,
       P (mkp q nw nq (l1 ++ w :: l2) g false) -> wtrans w q nw nq g w' q' nw' nq' g' ab ->
       P (mkp q' nw' nq' (l1 ++ w' :: l2) g' ab)) ->
    forall sched s, P s -> P (steps run n s sched).
  Proof.
    intros Hs. induction sched as [|i l IH]; intros s H; cbn; auto. apply IH.
    destruct (step_cases s i) as [->|(q & nw & nq & l1 & w & l2 & g & w' & q' & nw' & nq' & g' & ab & E & _ & T & ->)]; auto.
    subst s. eapply Hs; eauto.
  Qed.
End Trans.
Arguments mkw {W R}.
Arguments mkp {W G R}.

Ltac inv_trans T := inversion T; subst; clear T; cbn [wk_pc wk_waiting wk_quitting wk_log] in *.

Section Acct.
  Context {W G R : Type}.
  Variable Weq : forall x y : W, {x = y} + {x <> y}.
  Variable run : runner W G R.
  Variable n : nat.

  Definition cnt (x : W) (l : list W) : nat := count_occ Weq l x.
  Lemma cnt_app x a b : cnt x (a ++ b) = cnt x a + cnt x b.
  Proof. apply count_occ_app. Qed.
  Lemma cnt_cons x y l : cnt x (y :: l) = cnt x [y] + cnt x l.
  Proof. apply (cnt_app x [y] l). Qed.
  Lemma cnt_nil x : cnt x [] = 0. Proof. reflexivity. Qed.

  (** Every item asked for is queued, held, completed, or was lost in a panic *)
  Definition accounted (root : W) (s : pool W G R) : Prop :=
    exists lost, List.length lost = List.length (filter is_panicked (ps_workers s)) /\
      forall x, cnt x [root] + cnt x (spawned s) =
                cnt x (queued (ps_queue s)) + cnt x (hands s) + cnt x (completed s) + cnt x lost.

  Lemma queued_app a b : queued (a ++ b) = queued a ++ @queued W b.
  Proof. apply flat_map_app. Qed.
  Lemma queued_work x q : @queued W (MWork x :: q) = x :: queued q. Proof. reflexivity. Qed.
  Lemma queued_quit q : @queued W (MQuit :: q) = queued q. Proof. reflexivity. Qed.

  Lemma accounted_start root g : accounted root (start n root g).
  Proof.
    exists []. split.
    - cbn. unfold start. cbn. induction n; cbn; auto.
    - intros x. unfold spawned, completed, hands, pool_log, start. cbn [ps_workers ps_queue].
      assert (E1 : flat_map wk_log (repeat (@fresh_worker W R) n) = []) by (induction n; cbn; auto).
      assert (E2 : flat_map (fun w => hand (wk_pc w)) (repeat (@fresh_worker W R) n) = []) by (induction n; cbn; auto).
      rewrite E1, E2. cbn [flat_map List.map queued app]. rewrite !cnt_nil. lia.
  Qed.

  Ltac norm := unfold spawned, completed, hands, pool_log in *; cbn [mkp ps_workers ps_queue ps_ext] in *;
    repeat (rewrite ?flat_map_app, ?map_app, ?cnt_app, ?filter_app, ?app_length in *;
            cbn [flat_map List.map mkw wk_pc wk_log hand fst snd filter is_panicked List.length app] in *).

  Ltac conses := repeat match goal with
    | H : context [cnt ?y (?a :: ?l)] |- _ => lazymatch l with [] => fail | _ => rewrite (cnt_cons y a l) in H end
    | |- context [cnt ?y (?a :: ?l)] => lazymatch l with [] => fail | _ => rewrite (cnt_cons y a l) end
    end.

  Lemma accounted_steps root s sched : accounted root s -> accounted root (steps run n s sched).
  Proof.
    apply steps_inv. clear s sched.
    intros q nw nq l1 w l2 g w' q' nw' nq' g' ab (lost & Hl & Hc) T.
    inv_trans T.
    7:{ exists (x :: lost). split; [norm; lia|]. intros y. specialize (Hc y). norm. conses. lia. }
    all: exists lost; split; [norm; lia|].
    all: intros y; specialize (Hc y); norm.
    all: rewrite ?queued_app, ?queued_work, ?queued_quit, ?cnt_app in *.
    all: cbn [queued flat_map app] in *; conses; rewrite ?cnt_app, ?app_nil_r, ?cnt_nil in *; lia.
  Qed.

End Acct.

(** *** Positions: the same pool run on items labelled with their position in the tree of work *)
Section Label.
  Context {W G R : Type}.
  Variable Weq : forall x y : W, {x = y} + {x <> y}.
  Variable run : runner W G R.
  Variable n : nat.
  Notation LW := (list nat * W)%type.

  Definition label (p : list nat) (l : list W) : list LW :=
    List.map (fun x => (p ++ [fst x], snd x)) (index_list l).
  Definition lrun : runner LW G R := fun px g =>
    match run (snd px) g with
    | Done (g', ch, r) => Done (g', label (fst px) ch, r)
    | Panics => Panics
    | Diverges => Diverges
    end.

  Definition emsg (m : msg LW) : msg W := match m with MWork w => MWork (snd w) | MQuit => MQuit end.
  Definition epc (p : pc LW) : pc W :=
    match p with
    | PTry => PTry | PGot1 x => PGot1 (snd x) | PGot2 x => PGot2 (snd x) | PRun x => PRun (snd x)
    | PSend l => PSend (List.map snd l) | PQuit1 => PQuit1 | PQuit2 => PQuit2 | PLoadWait => PLoadWait
    | PLoadQuit k => PLoadQuit k | PErr1 => PErr1 | PErr2 => PErr2 | PErr3 => PErr3
    | PSendQuit k => PSendQuit k | PDone => PDone | PPanicked => PPanicked
    end.
  Definition elog (e : LW * list LW * R) : W * list W * R :=
    (snd (fst (fst e)), List.map snd (snd (fst e)), snd e).
  Definition eworker (w : worker LW R) : worker W R :=
    {| wk_pc := epc (wk_pc w); wk_waiting := wk_waiting w; wk_quitting := wk_quitting w;
       wk_log := List.map elog (wk_log w) |}.
  Definition epool (s : pool LW G R) : pool W G R :=
    {| ps_queue := List.map emsg (ps_queue s); ps_nwait := ps_nwait s; ps_nquit := ps_nquit s;
       ps_workers := List.map eworker (ps_workers s); ps_ext := ps_ext s; ps_aborted := ps_aborted s |}.

  Lemma label_snd p l : List.map snd (label p l) = l.
  Proof.
    unfold label. rewrite map_map. cbn [snd].
    transitivity (List.map snd (index_list l)); [apply map_ext; auto|apply index_list_map_snd].
  Qed.
  Lemma update_map {A B} (f : A -> B) l i x : List.map f (update l i x) = update (List.map f l) i (f x).
  Proof. revert i. induction l as [|a l IH]; intros [|i]; cbn; auto. rewrite IH. auto. Qed.

  Lemma eworker_mk p a b l :
    eworker {| wk_pc := p; wk_waiting := a; wk_quitting := b; wk_log := l |} =
    {| wk_pc := epc p; wk_waiting := a; wk_quitting := b; wk_log := List.map elog l |}.
  Proof. reflexivity. Qed.

  Lemma epool_step s i : epool (step lrun n s i) = step run n (epool s) i.
  Proof.
    unfold step. cbn [epool ps_aborted ps_workers]. destruct (ps_aborted s); auto.
    rewrite nth_error_map. destruct (nth_error (ps_workers s) i) as [w|] eqn:E; cbn [option_map]; auto.
    cbn [epool ps_queue ps_nwait ps_nquit ps_ext].
    destruct w as [p a b l]. unfold wstep. cbn [eworker wk_pc wk_waiting wk_quitting wk_log].
    unfold epool. cbn [ps_queue ps_workers ps_nwait ps_nquit ps_ext ps_aborted].
    destruct p as [ |x|x|x|xs| | | |k| | | |k| | ]; cbn [epc];
      cbn [ps_queue ps_workers ps_nwait ps_nquit ps_ext ps_aborted]; try (rewrite update_map; reflexivity).
    - destruct (ps_queue s) as [|[x|] q]; cbn [List.map emsg]; cbn [ps_queue ps_workers ps_nwait ps_nquit ps_ext ps_aborted];
        rewrite update_map; reflexivity.
    - unfold lrun. destruct (run (snd x) (ps_ext s)) as [[[g' ch] r]| |];
        cbn [ps_queue ps_workers ps_nwait ps_nquit ps_ext ps_aborted]; rewrite update_map; cbn [eworker wk_pc wk_waiting wk_quitting wk_log epc].
      + rewrite eworker_mk. cbn [epc]. rewrite label_snd, map_app. cbn [List.map]. unfold elog at 2. cbn [fst snd]. rewrite label_snd. reflexivity.
      + reflexivity.
      + reflexivity.
    - destruct xs as [|x xs]; cbn [List.map]; cbn [ps_queue ps_workers ps_nwait ps_nquit ps_ext ps_aborted];
        rewrite update_map; [reflexivity|]. rewrite map_app. reflexivity.
    - destruct (k <? n); [|destruct (Nat.eqb (ps_nquit s) n)]; cbn [ps_queue ps_workers ps_nwait ps_nquit ps_ext ps_aborted]; rewrite update_map; reflexivity.
    - destruct (Nat.eqb (ps_nwait s) n); cbn [ps_queue ps_workers ps_nwait ps_nquit ps_ext ps_aborted]; rewrite update_map; reflexivity.
    - destruct k; cbn [ps_queue ps_workers ps_nwait ps_nquit ps_ext ps_aborted]; rewrite update_map; [reflexivity|].
      rewrite map_app. reflexivity.
  Qed.
  Lemma epool_steps sched s : epool (steps lrun n s sched) = steps run n (epool s) sched.
  Proof. revert s. induction sched as [|i l IH]; intros s; [reflexivity|].
    change (steps lrun n s (i :: l)) with (steps lrun n (step lrun n s i) l).
    rewrite IH, epool_step. reflexivity. Qed.
  Lemma epool_start root g : epool (start n ([], root) g) = start n root g.
  Proof.
    unfold epool, start. cbn. f_equal. induction n; cbn; auto. rewrite IHn0. reflexivity.
  Qed.

  (** Every log entry's children carry the labels below its own *)
  Definition log_labelled (s : pool LW G R) : Prop :=
    forall e, In e (pool_log s) -> snd (fst e) = label (fst (fst (fst e))) (List.map snd (snd (fst e))).
  Lemma log_labelled_steps sched s : log_labelled s -> log_labelled (steps lrun n s sched).
  Proof.
    apply steps_inv. clear s sched.
    intros q nw nq l1 w l2 g w' q' nw' nq' g' ab H T e.
    unfold log_labelled, pool_log in *. cbn [mkp ps_workers] in *.
    rewrite flat_map_app. cbn [flat_map]. specialize (H e).
    rewrite flat_map_app in H. cbn [flat_map] in H.
    inv_trans T; cbn [mkw wk_log] in *; auto.
    intros I. rewrite !in_app_iff in *. cbn [In] in I.
    destruct I as [I|[[I|[I|[]]]|I]]; auto. subst e. cbn [fst snd].
    unfold lrun in H0. destruct (run (snd x) g) as [[[g'' ch'] r'']| |]; inversion H0; subst.
    rewrite label_snd. auto.
  Qed.

  Lemma LWeq : forall x y : LW, {x = y} + {x <> y}.
  Proof. decide equality. apply list_eq_dec, Nat.eq_dec. Qed.
  Definition lab_dec := list_eq_dec Nat.eq_dec.

  Lemma cnt_perm l l' : (forall x, cnt LWeq x l = cnt LWeq x l') -> Permutation l l'.
  Proof. intros H. apply (Permutation_count_occ LWeq). exact H. Qed.

  Lemma label_fst p l : List.map fst (label p l) = List.map (fun i => p ++ [i]) (seq 0 (List.length l)).
  Proof.
    unfold label, index_list. rewrite map_map. cbn [fst].
    generalize 0. induction l as [|x l IH]; intros k; cbn; auto. rewrite IH. auto.
  Qed.

  (** All labels present in a reachable state are distinct *)
  Definition all_items (s : pool LW G R) (lost : list LW) : list LW :=
    queued (ps_queue s) ++ hands s ++ completed s ++ lost.

  Lemma count_labels q p k m : count_occ lab_dec (List.map (fun i => p ++ [i]) (seq k m)) q <= 
    if lab_dec p (removelast q) then 1 else 0.
  Proof.
    assert (ND : NoDup (List.map (fun i => p ++ [i]) (seq k m))).
    { apply FinFun.Injective_map_NoDup; [|apply seq_NoDup]. intros i j E. apply app_inv_head in E. congruence. }
    pose proof (proj1 (NoDup_count_occ lab_dec _) ND q) as H1.
    destruct (lab_dec p (removelast q)) as [|Ne]; [auto|].
    apply Nat.eq_le_incl, count_occ_not_In. intros I. apply in_map_iff in I as (i & E & _). subst q.
    apply Ne. rewrite removelast_last. auto.
  Qed.

  Lemma labels_distinct s : log_labelled s ->
    forall root lost, (forall x, cnt LWeq x [([], root)] + cnt LWeq x (spawned s) =
                cnt LWeq x (queued (ps_queue s)) + cnt LWeq x (hands s) + cnt LWeq x (completed s) + cnt LWeq x lost) ->
    NoDup (List.map fst (all_items s lost)).
  Proof.
    intros Hl root lost Hc.
    assert (P : Permutation (List.map fst (([], root) :: spawned s)) (List.map fst (all_items s lost))).
    { apply Permutation_map, cnt_perm. intros x. unfold all_items. rewrite cnt_cons, !cnt_app. specialize (Hc x). lia. }
    apply (NoDup_count_occ lab_dec). 
    assert (Len : forall k q, List.length q <= k -> count_occ lab_dec (List.map fst (all_items s lost)) q <= 1).
    { induction k as [|k IH]; intros q Hq.
      - destruct q; [|cbn in Hq; lia]. rewrite <- (proj1 (Permutation_count_occ lab_dec _ _) P).
        cbn [List.map fst]. rewrite count_occ_cons_eq by auto.
        enough (E : count_occ lab_dec (List.map fst (spawned s)) [] = 0) by lia.
        apply count_occ_not_In. intros I. apply in_map_iff in I as (x & Ex & I).
        unfold spawned in I. apply in_flat_map in I as (e & Ie & Ix). rewrite (Hl e Ie) in Ix.
        assert (I2 : In (fst x) (List.map fst (label (fst (fst (fst e))) (List.map snd (snd (fst e)))))) by (apply in_map; auto).
        rewrite label_fst in I2. apply in_map_iff in I2 as (i & E & _). rewrite Ex in E. destruct (fst (fst (fst e))); discriminate.
      - destruct q as [|a q0] eqn:Eq; [apply IH; cbn; lia|]. rewrite <- Eq in *.
        assert (Ne : q <> []) by (rewrite Eq; discriminate).
        assert (L2 : List.length (removelast q) <= k).
        { pose proof (app_removelast_last 0 Ne) as E. apply (f_equal (@List.length nat)) in E.
          rewrite app_length in E. cbn in E. lia. }
        specialize (IH _ L2).
        rewrite <- (proj1 (Permutation_count_occ lab_dec _ _) P).
        cbn [List.map fst]. rewrite count_occ_cons_neq by (intros E; congruence).
        assert (B : count_occ lab_dec (List.map fst (spawned s)) q <=
                    count_occ lab_dec (List.map fst (completed s)) (removelast q)).
        { unfold spawned, completed. clear - Hl.
          assert (Hl' : forall e, In e (pool_log s) -> snd (fst e) = label (fst (fst (fst e))) (List.map snd (snd (fst e)))) by exact Hl.
          clear Hl. induction (pool_log s) as [|e l IH]; [cbn; lia|].
          cbn [flat_map List.map]. rewrite map_app, count_occ_app.
          assert (C : count_occ lab_dec (List.map fst (snd (fst e))) q <= if lab_dec (fst (fst (fst e))) (removelast q) then 1 else 0).
          { rewrite (Hl' e) by (cbn; auto). rewrite label_fst. apply count_labels. }
          specialize (IH (fun e I => Hl' e (or_intror I))).
          cbn [count_occ]. destruct (lab_dec (fst (fst (fst e))) (removelast q)); lia. }
        assert (C : count_occ lab_dec (List.map fst (completed s)) (removelast q) <=
                    count_occ lab_dec (List.map fst (all_items s lost)) (removelast q)).
        { unfold all_items. rewrite !map_app, !count_occ_app. lia. }
        lia. }
    intros q. apply (Len (List.length q)). lia.
  Qed.

  (** With children determined by the item, every label is the position of its item *)
  Variable kids : W -> list W.
  Hypothesis run_kids : forall x g g' ch r, run x g = Done (g', ch, r) -> ch = kids x.

  Definition positioned (root : W) (s : pool LW G R) : Prop :=
    (forall px, In px (queued (ps_queue s) ++ hands s ++ completed s) -> node kids root (fst px) (snd px)).
  Lemma positioned_steps root sched s : positioned root s -> positioned root (steps lrun n s sched).
  Proof.
    apply steps_inv. clear s sched.
    intros q nw nq l1 w l2 g w' q' nw' nq' g' ab H T px.
    unfold positioned, hands, completed, pool_log in *. cbn [mkp ps_workers ps_queue] in *.
    specialize (fun px => H px) as H. 
    assert (H' : forall px, In px (queued q) \/ (In px (flat_map (fun w => hand (wk_pc w)) l1) \/ In px (hand (wk_pc w)) \/
                In px (flat_map (fun w => hand (wk_pc w)) l2)) \/
              (In px (List.map (fun e => fst (fst e)) (flat_map wk_log l1)) \/
               In px (List.map (fun e => fst (fst e)) (wk_log w)) \/
               In px (List.map (fun e => fst (fst e)) (flat_map wk_log l2))) -> node kids root (fst px) (snd px)).
    { intros py I. apply H. rewrite !flat_map_app. cbn [flat_map]. rewrite !map_app, !in_app_iff. tauto. }
    clear H. rewrite !flat_map_app. cbn [flat_map]. rewrite !map_app, !in_app_iff.
    inv_trans T; cbn [mkw wk_log wk_pc hand In queued flat_map] in *; try (intros I; apply H'; tauto).
    - intros I. apply H'. rewrite in_app_iff. cbn [In]. tauto.
    - unfold lrun in H. destruct (run (snd x) g) as [[[g'' ch'] r'']| |] eqn:Er; inversion H; subst.
      rewrite map_app, in_app_iff. cbn [List.map fst In].
      intros [I|[[I|[I|I]]|[I|[[I|[I|[]]]|I]]]]; try (apply H'; tauto).
      unfold label in I. apply in_map_iff in I as (y & <- & I). cbn [fst snd].
      apply node_child with (x := snd x).
      + apply H'. tauto.
      + apply run_kids in Er. rewrite <- Er.
        unfold index_list in I. clear - I.
        assert (G0 : forall l k, In y (combine (seq k (List.length l)) l) -> nth_error l (fst y - k) = Some (snd y) /\ k <= fst y).
        { clear. induction l as [|c l IH]; intros k I'; [destruct I'|]. cbn [List.length seq combine In] in I'.
          destruct I' as [E|I'].
          - subst y. cbn. rewrite Nat.sub_diag. auto.
          - apply IH in I'. destruct I' as [E L]. split; [|lia].
            replace (fst y - k) with (S (fst y - S k)) by lia. exact E. }
        destruct (G0 _ 0 I) as [E _]. rewrite Nat.sub_0_r in E. auto.
    - fold (@queued LW) in *. change (flat_map _ (q ++ [MWork x])) with (queued (q ++ [MWork x])).
      rewrite queued_app, in_app_iff. cbn [queued flat_map In app]. intros I. apply H'. unfold queued. tauto.
    - change (flat_map _ (q ++ [MQuit])) with (@queued LW (q ++ [MQuit])).
      rewrite queued_app, in_app_iff. cbn [queued flat_map In app]. intros I. apply H'. unfold queued. tauto.
  Qed.

  (** Every log entry's children are those of its item *)
  Definition log_kids (s : pool LW G R) : Prop :=
    forall e, In e (pool_log s) -> snd (fst e) = label (fst (fst (fst e))) (kids (snd (fst (fst e)))).
  Lemma log_kids_steps sched s : log_kids s -> log_kids (steps lrun n s sched).
  Proof.
    apply steps_inv. clear s sched.
    intros q nw nq l1 w l2 g w' q' nw' nq' g' ab H T e.
    unfold log_kids, pool_log in *. cbn [mkp ps_workers] in *.
    rewrite flat_map_app. cbn [flat_map]. specialize (H e).
    rewrite flat_map_app in H. cbn [flat_map] in H.
    inv_trans T; cbn [mkw wk_log] in *; auto.
    intros I. rewrite !in_app_iff in *. cbn [In] in I.
    destruct I as [I|[[I|[I|[]]]|I]]; auto. subst e. cbn [fst snd].
    unfold lrun in H0. destruct (run (snd x) g) as [[[g'' ch'] r'']| |] eqn:Er; inversion H0; subst.
    apply run_kids in Er. subst. auto.
  Qed.

  Lemma label_nth p l i y : nth_error l i = Some y -> In (p ++ [i], y) (label p l).
  Proof.
    intros H. unfold label. apply in_map_iff. exists (i, y). split; auto.
    unfold index_list. 
    assert (G0 : forall l k i, nth_error l i = Some y -> In (k + i, y) (combine (seq k (List.length l)) l)).
    { clear. induction l as [|c l IH]; intros k [|i] E; try discriminate; cbn [nth_error] in E; cbn [List.length seq combine In].
      - inversion E; subst. rewrite Nat.add_0_r. auto.
      - right. replace (k + S i) with (S k + i) by lia. auto. }
    apply (G0 l 0 i H).
  Qed.

  Lemma at_most_once root g sched :
    let s := steps run n (start n root g) sched in
    exists ps, NoDup ps /\ Forall2 (node kids root) ps (completed s) /\
      (queued (ps_queue s) = [] -> hands s = [] -> filter is_panicked (ps_workers s) = [] ->
       forall p x, node kids root p x -> In p ps) /\
      (forall x, In x (queued (ps_queue s)) -> exists p, node kids root p x /\ ~ In p ps).
  Proof.
    cbn zeta.
    set (ls := steps lrun n (start n ([], root) g) sched).
    assert (Es : epool ls = steps run n (start n root g) sched).
    { unfold ls. rewrite epool_steps, epool_start. auto. }
    rewrite <- Es.
    assert (Ha : accounted LWeq ([], root) ls) by (apply accounted_steps, accounted_start).
    assert (Hlog : log_labelled ls).
    { apply log_labelled_steps. intros e I. unfold start, pool_log in I. cbn in I. exfalso. clear - I.
      induction n; cbn in I; auto. }
    assert (Hk : log_kids ls).
    { apply log_kids_steps. intros e I. unfold start, pool_log in I. cbn in I. exfalso. clear - I.
      induction n; cbn in I; auto. }
    destruct Ha as (lost & Hlost & Hc).
    pose proof (labels_distinct ls Hlog root lost Hc) as ND.
    assert (Hp : positioned root ls).
    { apply positioned_steps. intros px I. unfold start, hands, completed, pool_log in I. cbn in I.
      assert (E1 : flat_map wk_log (repeat (@fresh_worker LW R) n) = []) by (clear; induction n; cbn; auto).
      assert (E2 : flat_map (fun w => hand (wk_pc w)) (repeat (@fresh_worker LW R) n) = []) by (clear; induction n; cbn; auto).
      rewrite E1, E2 in I. cbn in I. destruct I as [<-|[]]. constructor. }
    exists (List.map fst (completed ls)). split; [|split; [|split]].
    - unfold all_items in ND. rewrite !map_app in ND.
      apply NoDup_app_r in ND. apply NoDup_app_r in ND. apply NoDup_app_l in ND. auto.
    - assert (Ec : completed (epool ls) = List.map snd (completed ls)).
      { unfold completed, pool_log. cbn [epool ps_workers]. rewrite map_map.
        clear. induction (ps_workers ls) as [|w l IH]; cbn; auto. rewrite !map_app, IH. f_equal.
        rewrite !map_map. reflexivity. }
      rewrite Ec. assert (Hp' : forall px, In px (completed ls) -> node kids root (fst px) (snd px)).
      { intros px I. apply Hp. rewrite !in_app_iff. auto. }
      clear - Hp'. revert Hp'. generalize (completed ls). intros l. induction l as [|px l IH]; intros Hp'; cbn; constructor; [apply Hp'; cbn; auto|].
      apply IH. intros py I. apply Hp'. cbn; auto.
    - intros Eq Eh Ep p x N. cut (In (p, x) (completed ls)); [intros I; apply in_map_iff; exists (p, x); auto|].
      assert (Q : queued (ps_queue ls) = []).
      { clear - Eq. cbn [epool ps_queue] in Eq. induction (ps_queue ls) as [|[y|] q IH]; cbn in *; auto. discriminate. }
      assert (Hh : hands ls = []).
      { clear - Eh. unfold hands in *. cbn [epool ps_workers] in Eh. induction (ps_workers ls) as [|w l IH]; cbn in *; auto.
        apply app_eq_nil in Eh as [E1 E2]. rewrite IH by auto. rewrite app_nil_r.
        unfold eworker, epc in E1. cbn [wk_pc] in E1. destruct (wk_pc w); cbn in *; auto; try discriminate.
        all: apply map_eq_nil in E1; auto. }
      assert (Hl : lost = []).
      { assert (E : filter is_panicked (ps_workers ls) = []).
        { clear - Ep. cbn [epool ps_workers] in Ep. induction (ps_workers ls) as [|w l IH]; cbn in *; auto.
          replace (is_panicked (eworker w)) with (is_panicked w) in Ep
            by (unfold is_panicked, eworker, epc; cbn [wk_pc]; destruct (wk_pc w); reflexivity).
          destruct (is_panicked w); [discriminate|]. auto. }
        rewrite E in Hlost. destruct lost; auto; discriminate. }
      rewrite Q, Hh, Hl in Hc.
      assert (M : forall y, In y (([], root) :: spawned ls) -> In y (completed ls)).
      { intros y I. apply (count_occ_In LWeq) in I. apply (count_occ_In LWeq).
        specialize (Hc y). unfold cnt in Hc. cbn in Hc, I. destruct (LWeq ([], root) y); lia. }
      induction N as [|p x i y N IH E].
      + apply M. cbn. auto.
      + apply M. right. unfold spawned. apply in_flat_map.
        unfold completed in IH. apply in_map_iff in IH as (e & Ee & Ie).
        exists e. split; auto. rewrite (Hk e Ie), Ee. cbn [fst snd]. apply label_nth. auto.
    - intros x I.
      assert (I' : exists p, In (p, x) (queued (ps_queue ls))).
      { clear - I. cbn [epool ps_queue] in I. unfold queued in I. apply in_flat_map in I as (m & Im & Ix).
        apply in_map_iff in Im as (m' & <- & Im). destruct m' as [[p y]|]; cbn in Ix; [|destruct Ix].
        destruct Ix as [<-|[]]. exists p. unfold queued. apply in_flat_map. exists (MWork (p, y)). cbn. auto. }
      destruct I' as [p I']. exists p. split; [apply (Hp (p, x)); rewrite in_app_iff; auto|].
      intros C. unfold all_items in ND. rewrite !map_app in ND.
      assert (I2 : In p (List.map fst (queued (ps_queue ls)))) by (apply in_map_iff; exists (p, x); auto).
      clear - ND C I2. revert ND I2. generalize (List.map fst (queued (ps_queue ls))).
      intros l ND I2. induction l as [|z l IH]; [destruct I2|].
      cbn in ND. inversion ND; subst. destruct I2 as [->|I2]; [|auto].
      apply H1. rewrite !in_app_iff. auto.
  Qed.
End Label.
