(** Main facts about the worker pool: flags, completeness, no deadlock, panics. *)
From Verif Require Export PoolFacts.
From Coq Require Import Lia.

Section Flags.
  Context {W G R : Type}.
  Variable run : runner W G R.
  Variable n : nat.
  Notation worker := (worker W R).

  Definition b2n (b : bool) : nat := if b then 1 else 0.
  Definition nwaiting (ws : list worker) : nat := list_sum (List.map (fun w => b2n (wk_waiting w)) ws).
  Definition nquitting (ws : list worker) : nat := list_sum (List.map (fun w => b2n (wk_quitting w)) ws).

  (** The flags at each program point *)
  Definition pc_flags (w : worker) : Prop :=
    match wk_pc w with
    | PLoadWait | PLoadQuit _ | PDone => wk_waiting w = true /\ wk_quitting w = true
    | PQuit2 | PErr2 => wk_waiting w = true
    | PErr3 | PSendQuit _ => wk_waiting w = true /\ wk_quitting w = false
    | PGot2 _ => wk_waiting w = false
    | PRun _ | PSend _ | PPanicked => wk_waiting w = false /\ wk_quitting w = false
    | PTry | PGot1 _ | PQuit1 | PErr1 => True
    end.
  Definition flags (s : pool W G R) : Prop :=
    List.length (ps_workers s) = n /\ ps_nwait s = nwaiting (ps_workers s) /\
    ps_nquit s = nquitting (ps_workers s) /\ Forall pc_flags (ps_workers s).

  Lemma nwaiting_app a b : nwaiting (a ++ b) = nwaiting a + nwaiting b.
  Proof. unfold nwaiting. rewrite map_app, list_sum_app. auto. Qed.
  Lemma nwaiting_cons w b : nwaiting (w :: b) = b2n (wk_waiting w) + nwaiting b.
  Proof. reflexivity. Qed.
  Lemma nquitting_app a b : nquitting (a ++ b) = nquitting a + nquitting b.
  Proof. unfold nquitting. rewrite map_app, list_sum_app. auto. Qed.
  Lemma nquitting_cons w b : nquitting (w :: b) = b2n (wk_quitting w) + nquitting b.
  Proof. reflexivity. Qed.
  Lemma nwaiting_le ws : nwaiting ws <= List.length ws.
  Proof. induction ws as [|w l IH]; [auto|]. rewrite nwaiting_cons. cbn. destruct (wk_waiting w); cbn; lia. Qed.
  Lemma nquitting_le ws : nquitting ws <= List.length ws.
  Proof. induction ws as [|w l IH]; [auto|]. rewrite nquitting_cons. cbn. destruct (wk_quitting w); cbn; lia. Qed.

  Lemma flags_start root g : flags (start n root g).
  Proof.
    unfold flags, start. cbn [ps_workers ps_nwait ps_nquit]. rewrite repeat_length. split; auto.
    assert (E : nwaiting (repeat (@fresh_worker W R) n) = 0 /\ nquitting (repeat (@fresh_worker W R) n) = 0).
    { clear. induction n as [|k [IH1 IH2]]; cbn; auto. }
    destruct E as [-> ->]. repeat split; auto. clear. induction n; cbn; constructor; cbn; auto.
  Qed.

  Lemma flags_trans q nw nq l1 w l2 g w' q' nw' nq' g' ab :
    flags (mkp q nw nq (l1 ++ w :: l2) g false) -> wtrans run n w q nw nq g w' q' nw' nq' g' ab ->
    flags (mkp q' nw' nq' (l1 ++ w' :: l2) g' ab).
  Proof.
    intros (Hl & Hw & Hq & F) T. cbn [mkp ps_workers ps_nwait ps_nquit] in *.
    apply Forall_app in F as [F1 F2]. inversion F2 as [|? ? Fw F3]; subst.
    unfold flags. cbn [mkp ps_workers ps_nwait ps_nquit].
    rewrite app_length in *. cbn [List.length] in *.
    rewrite !nwaiting_app, !nwaiting_cons, !nquitting_app, !nquitting_cons in *.
    assert (D : forall w'', pc_flags w'' -> Forall pc_flags (l1 ++ w'' :: l2)).
    { intros w'' H. apply Forall_app. auto. }
    inv_trans T; unfold pc_flags in Fw; cbn [mkw wk_pc wk_waiting wk_quitting] in *.
    all: try match goal with H : _ /\ _ |- _ => destruct H; subst end.
    all: subst; unfold set_flag.
    all: try (split; [lia|]; (split; [|split; [|apply D; cbn; auto]]); try lia).
    all: try (destruct a; cbn [b2n] in *; lia).
    all: try (destruct b; cbn [b2n] in *; lia).
  Qed.
  Lemma flags_steps s sched : flags s -> flags (steps run n s sched).
  Proof. apply steps_inv. intros. eapply flags_trans; eauto. Qed.

  Lemma app_mid_inj {A} (l1 l2 l3 : list A) x y : l1 ++ x :: l2 = l1 ++ y :: l3 -> x = y /\ l2 = l3.
  Proof. intros H. apply app_inv_head in H. inversion H; auto. Qed.

  (** *** After a panic *)
  Definition ended (w : worker) : bool := is_done w || is_panicked w.

  Lemma panicked_quit s w : flags s -> In w (ps_workers s) -> is_panicked w = true -> ps_nquit s < n /\ ps_nwait s < n.
  Proof.
    intros (Hl & Hw & Hq & F) I P. apply in_split in I as (l1 & l2 & E). rewrite E in *.
    apply Forall_app in F as [_ F]. inversion F as [|? ? Fw _]; subst.
    unfold is_panicked in P. unfold pc_flags in Fw. destruct (wk_pc w); try discriminate. destruct Fw as [Ew Eq].
    rewrite Hq, Hw, nquitting_app, nquitting_cons, nwaiting_app, nwaiting_cons, Ew, Eq.
    pose proof (nquitting_le l1). pose proof (nquitting_le l2). pose proof (nwaiting_le l1). pose proof (nwaiting_le l2).
    rewrite app_length. cbn. lia.
  Qed.

  Lemma step_done s i : flags s -> existsb is_panicked (ps_workers s) = true ->
    existsb is_panicked (ps_workers (step run n s i)) = true /\
    List.map is_done (ps_workers (step run n s i)) = List.map is_done (ps_workers s).
  Proof.
    intros Fl P.
    destruct (step_cases run n s i) as [->|(q & nw & nq & l1 & w & l2 & g & w' & q' & nw' & nq' & g' & ab & E & _ & T & ->)]; auto.
    apply existsb_exists in P as P'. destruct P' as (pw & Ipw & Ppw).
    pose proof (panicked_quit s pw Fl Ipw Ppw) as [Lq Lw]. subst s. cbn [mkp ps_workers ps_nquit ps_nwait] in *.
    rewrite existsb_app in *. cbn [existsb] in *. rewrite !map_app. cbn [List.map].
    assert (D : is_done w' = is_done w /\ (is_panicked w = true -> is_panicked w' = true)).
    { inv_trans T; split; cbn; auto; try discriminate. lia. }
    destruct D as [-> D]. split; auto.
    destruct (existsb is_panicked l1); auto. cbn [orb] in *.
    destruct (is_panicked w) eqn:Ew; [rewrite D; auto|]. cbn [orb] in P. rewrite P. apply orb_true_r.
  Qed.
  Lemma after_panic s sched : flags s -> existsb is_panicked (ps_workers s) = true ->
    existsb is_panicked (ps_workers (steps run n s sched)) = true /\
    List.map is_done (ps_workers (steps run n s sched)) = List.map is_done (ps_workers s).
  Proof.
    revert s. induction sched as [|i l IH]; intros s F P; [auto|].
    change (steps run n s (i :: l)) with (steps run n (step run n s i) l).
    destruct (step_done s i F P) as [P' D].
    destruct (IH (step run n s i)) as [P'' D']; auto.
    { apply (flags_steps s [i]). auto. }
    split; auto. congruence.
  Qed.
End Flags.

Section Complete.
  Context {W G R : Type}.
  Variable run : runner W G R.
  Variable n : nat.
  Variable kids : W -> list W.
  Hypothesis run_kids : forall x g g' ch r, run x g = Done (g', ch, r) -> ch = kids x.

  (** A predicate on work items that children inherit holds of every item around *)
  Lemma items_inv (P : W -> Prop) (HP : forall x, P x -> Forall P (kids x)) :
    forall sched s, Forall P (queued (ps_queue s)) -> Forall P (hands s) -> Forall P (completed s) ->
    let s' := steps run n s sched in
    Forall P (queued (ps_queue s')) /\ Forall P (hands s') /\ Forall P (completed s').
  Proof.
    intros sched s Hq Hh Hc. cbn zeta.
    apply (steps_inv run n (fun s => Forall P (queued (ps_queue s)) /\ Forall P (hands s) /\ Forall P (completed s))); auto.
    clear - HP run_kids. intros q nw nq l1 w l2 g w' q' nw' nq' g' ab (Hq & Hh & Hc) T.
    unfold hands, completed, pool_log in *. cbn [mkp ps_workers ps_queue] in *.
    rewrite flat_map_app in Hh. cbn [flat_map] in Hh. apply Forall_app in Hh as [Hh1 Hh]. apply Forall_app in Hh as [Hhw Hh2].
    rewrite flat_map_app in Hc. cbn [flat_map] in Hc. rewrite !map_app in Hc.
    apply Forall_app in Hc as [Hc1 Hc]. apply Forall_app in Hc as [Hcw Hc2].
    rewrite !flat_map_app. cbn [flat_map]. rewrite !map_app.
    assert (D : Forall P (queued q') -> Forall P (hand (wk_pc w')) -> Forall P (List.map (fun e => fst (fst e)) (wk_log w')) ->
      Forall P (queued q') /\ Forall P (flat_map (fun w => hand (wk_pc w)) l1 ++ hand (wk_pc w') ++ flat_map (fun w => hand (wk_pc w)) l2) /\
      Forall P (List.map (fun e => fst (fst e)) (flat_map wk_log l1) ++ List.map (fun e => fst (fst e)) (wk_log w') ++
                List.map (fun e => fst (fst e)) (flat_map wk_log l2))).
    { intros A B C. rewrite !Forall_app. auto. }
    apply D; clear D; inv_trans T; cbn [mkw wk_pc wk_log hand] in *;
      rewrite ?queued_app, ?queued_work, ?queued_quit, ?map_app, ?Forall_app in *; auto.
    all: cbn [List.map fst queued flat_map app].
    all: try (inversion Hq; subst; auto; fail).
    all: try (inversion Hhw; subst; auto; fail).
    apply run_kids in H. subst. inversion Hhw; subst. auto.
  Qed.
  Lemma items_start (P : W -> Prop) root g : P root ->
    Forall P (queued (ps_queue (@start W G R n root g))) /\ Forall P (hands (@start W G R n root g)) /\ Forall P (completed (@start W G R n root g)).
  Proof.
    intros H. unfold start, hands, completed, pool_log. cbn. repeat split; auto.
    - clear - H. induction n; cbn; auto.
    - clear - H. induction n; cbn; auto.
  Qed.

  (** When every worker has returned, work left in the channel is all that is missing *)
  Lemma returned_hands (s : pool W G R) : pool_status s = AllReturned ->
    hands s = [] /\ filter is_panicked (ps_workers s) = [] /\ forall w, In w (ps_workers s) -> is_done w = true.
  Proof.
    unfold pool_status. destruct (ps_aborted s); [discriminate|].
    destruct (forallb _ (ps_workers s)) eqn:F; [|discriminate].
    destruct (existsb is_panicked (ps_workers s)) eqn:E; [discriminate|]. intros _.
    rewrite forallb_forall in F.
    assert (D : forall w, In w (ps_workers s) -> is_done w = true).
    { intros w I. specialize (F w I). apply orb_true_iff in F as [F|F]; auto.
      exfalso. assert (X : existsb is_panicked (ps_workers s) = true) by (apply existsb_exists; eauto). congruence. }
    split; [|split; auto].
    - unfold hands. clear - D. induction (ps_workers s) as [|w l IH]; cbn; auto.
      rewrite IH by (intros; apply D; cbn; auto). specialize (D w (or_introl eq_refl)).
      unfold is_done in D. destruct (wk_pc w); try discriminate. reflexivity.
    - clear - E. induction (ps_workers s) as [|w l IH]; cbn in *; auto.
      apply orb_false_iff in E as [-> E]. auto.
  Qed.

  (** *** Flat trees of work: only the root has children *)
  Definition noquit (q : list (msg W)) : Prop := ~ In MQuit q.
  Definition sorted (q : list (msg W)) : Prop := exists a b, q = List.map MWork a ++ b /\ queued b = [].
  Definition quitpc (p : pc W) : bool :=
    match p with PQuit1 | PQuit2 | PLoadWait | PLoadQuit _ | PDone => true | _ => false end.
  Definition calm (p : pc W) : Prop :=
    match p with PQuit1 | PQuit2 | PLoadWait | PLoadQuit _ | PDone | PSendQuit _ => False | _ => True end.
  Definition leaf (x : W) : Prop := kids x = [].
  Definition leafy (p : pc W) : Prop :=
    match p with PGot1 x | PGot2 x | PRun x => leaf x | PSend ws => ws = [] | _ => True end.
  Definition holds_root (root : W) (w : worker W R) : Prop :=
    wk_waiting w = false /\
    match wk_pc w with PGot1 x | PGot2 x | PRun x => x = root | PSend ws => Forall leaf ws | _ => False end.

  (** Before the root has been taken; while it is being expanded; afterwards *)
  Definition phase0 (root : W) (s : pool W G R) : Prop :=
    ps_queue s = [MWork root] /\ Forall (fun w => wk_pc w = PTry /\ wk_waiting w = false) (ps_workers s).
  Definition phase1 (root : W) (s : pool W G R) : Prop :=
    noquit (ps_queue s) /\ Forall leaf (queued (ps_queue s)) /\
    exists l1 w l2, ps_workers s = l1 ++ w :: l2 /\ holds_root root w /\
      Forall (fun w => leafy (wk_pc w) /\ calm (wk_pc w)) (l1 ++ l2).
  Definition phase2 (s : pool W G R) : Prop :=
    sorted (ps_queue s) /\ Forall leaf (queued (ps_queue s)) /\
    Forall (fun w => leafy (wk_pc w)) (ps_workers s) /\
    (existsb (fun w => quitpc (wk_pc w)) (ps_workers s) = true -> queued (ps_queue s) = []).

  Lemma noquit_sorted q : noquit q -> sorted q.
  Proof.
    intros H. exists (queued q), []. split; auto. rewrite app_nil_r.
    induction q as [|[x|] q IH]; cbn; auto.
    - f_equal. apply IH. intros I. apply H. right. auto.
    - exfalso. apply H. left. auto.
  Qed.
  Lemma sorted_quit q : sorted (MQuit :: q) -> queued q = [].
  Proof.
    intros (a & b & E & Hb). destruct a; cbn in E; [|discriminate]. subst b. cbn in Hb. auto.
  Qed.
  Lemma sorted_tail m q : sorted (m :: q) -> sorted q.
  Proof.
    intros (a & b & E & Hb). destruct a as [|x a]; cbn in E.
    - subst b. exists [], q. split; auto. destruct m; cbn in Hb; [discriminate|auto].
    - inversion E; subst. exists a, b. auto.
  Qed.
  Lemma sorted_snoc q : sorted q -> sorted (q ++ [MQuit]).
  Proof.
    intros (a & b & E & Hb). exists a, (b ++ [MQuit]). subst. rewrite app_assoc. split; auto.
    rewrite queued_app, Hb. auto.
  Qed.
  Lemma split_mid {A} (a : list A) w b l1 y l2 : a ++ w :: b = l1 ++ y :: l2 ->
    (a = l1 /\ w = y /\ b = l2) \/
    (exists c, a = l1 ++ y :: c /\ l2 = c ++ w :: b) \/
    (exists c, b = c ++ y :: l2 /\ l1 = a ++ w :: c).
  Proof.
    revert l1. induction a as [|x a IH]; intros [|z l1] H; cbn in H; inversion H; subst; auto.
    - right. right. exists l1. auto.
    - right. left. exists a. auto.
    - destruct (IH l1 H2) as [(-> & -> & ->)|[(c & -> & ->)|(c & -> & ->)]]; auto.
      + right. left. exists c. auto.
      + right. right. exists c. auto.
  Qed.

  Lemma other_step q nw nq w g w' q' nw' nq' g' ab : wtrans run n w q nw nq g w' q' nw' nq' g' ab ->
    nw < n -> noquit q -> Forall leaf (queued q) -> leafy (wk_pc w) -> calm (wk_pc w) ->
    leafy (wk_pc w') /\ calm (wk_pc w') /\ noquit q' /\ Forall leaf (queued q').
  Proof.
    intros T L N Q Hl Hc. inv_trans T; cbn [mkw wk_pc leafy calm] in *; try contradiction; auto 6.
    - rewrite queued_work in Q. inversion Q; subst. repeat split; auto. intros I. apply N. right. auto.
    - exfalso. apply N. left. auto.
    - apply run_kids in H. unfold leaf in Hl. subst. auto.
    - discriminate.
    - lia.
  Qed.
  Lemma leaf_step q nw nq w g w' q' nw' nq' g' ab : wtrans run n w q nw nq g w' q' nw' nq' g' ab ->
    sorted q -> Forall leaf (queued q) -> leafy (wk_pc w) ->
    sorted q' /\ Forall leaf (queued q') /\ leafy (wk_pc w') /\ (queued q = [] -> queued q' = []) /\
    (quitpc (wk_pc w') = true -> quitpc (wk_pc w) = true \/ queued q' = []).
  Proof.
    intros T S Q Hl. inv_trans T; cbn [mkw wk_pc leafy quitpc] in *; auto 8; try (intuition congruence).
    - rewrite queued_work in *. inversion Q; subst. apply sorted_tail in S. intuition congruence.
    - rewrite queued_quit in *. pose proof (sorted_quit _ S). apply sorted_tail in S. intuition congruence.
    - apply run_kids in H. unfold leaf in Hl. subst. intuition congruence.
    - rewrite queued_app. cbn. rewrite app_nil_r. pose proof (sorted_snoc _ S). intuition congruence.
  Qed.
  Lemma holder_waits nw q nq (l1 : list (worker W R)) w l2 (g : G) ab : flags n (mkp q nw nq (l1 ++ w :: l2) g ab) ->
    wk_waiting w = false -> nw < n.
  Proof.
    intros (Hl & Hw & _ & _) E. cbn [mkp ps_workers ps_nwait] in *.
    rewrite nwaiting_app, nwaiting_cons, E in Hw. rewrite app_length in Hl. cbn in *.
    pose proof (nwaiting_le l1). pose proof (nwaiting_le l2). lia.
  Qed.

  Definition phases (root : W) (s : pool W G R) : Prop := flags n s /\ (phase0 root s \/ phase1 root s \/ phase2 s).

  Lemma phase_trans root (F : Forall leaf (kids root)) q nw nq l1 w l2 g w' q' nw' nq' g' ab :
    phases root (mkp q nw nq (l1 ++ w :: l2) g false) ->
    wtrans run n w q nw nq g w' q' nw' nq' g' ab ->
    phases root (mkp q' nw' nq' (l1 ++ w' :: l2) g' ab).
  Proof.
    intros [Fl H] T. split; [eapply flags_trans; eauto|].
    destruct H as [[H0 H]|[(Hn & Hq & a & h & b & E & Hh & Ho)|(Hs & Hq & Hw & He)]];
      cbn [mkp ps_queue ps_workers] in *.
    - (* phase 0 *)
      subst q. apply Forall_app in H as [H1 H]. inversion H as [|? ? [Ew Ef] H2]; subst.
      inv_trans T; try discriminate. cbn [mkw wk_pc wk_waiting] in *. subst.
      right. left. split; [intros []|]. split; [constructor|].
      exists l1, (mkw (PGot1 root) false b l), l2. split; auto. split; [split; cbn; auto|].
      apply Forall_app. split; eapply Forall_impl; eauto; cbn; intros y [-> _]; cbn; auto.
    - (* phase 1 *)
      destruct (split_mid _ _ _ _ _ _ E) as [(-> & -> & ->)|[(c & -> & ->)|(c & -> & ->)]].
      + (* the holder of the root moves *)
        assert (Dn : forall w', holds_root root w' -> noquit q' -> Forall leaf (queued q') ->
          phase1 root (mkp q' nw' nq' (a ++ w' :: b) g' ab)).
        { intros w'' A B C. split; auto. split; auto. exists a, w'', b. auto. }
        destruct Hh as [Ef Hh].
        inv_trans T; cbn [mkw wk_pc wk_waiting] in *; try contradiction; subst.
        * right. left. apply Dn; auto. split; cbn; auto.
        * right. left. apply Dn; auto. split; cbn; auto.
        * right. left. apply Dn; auto. split; cbn; auto. cbn. apply run_kids in H. subst. auto.
        * right. right. split; [apply noquit_sorted; auto|]. split; auto. cbn [mkp ps_workers].
          apply Forall_app in Ho as [Ho1 Ho2]. split.
          { apply Forall_app. split; [|constructor; cbn; auto]; eapply Forall_impl; eauto; cbn; tauto. }
          { intros X. exfalso. rewrite existsb_app in X. cbn [existsb mkw wk_pc quitpc orb] in X.
            apply orb_true_iff in X as [X|X]; apply existsb_exists in X as (y & Iy & Xy);
              [rewrite Forall_forall in Ho1; apply Ho1 in Iy|rewrite Forall_forall in Ho2; apply Ho2 in Iy];
              destruct Iy as [_ C]; destruct (wk_pc y); cbn in *; try discriminate; auto. }
        * right. left. apply Dn; auto. split; cbn; auto.
        * right. right. split; [apply noquit_sorted; auto|]. split; auto. cbn [mkp ps_workers].
          apply Forall_app in Ho as [Ho1 Ho2]. split.
          { apply Forall_app. split; [|constructor; cbn; auto]; eapply Forall_impl; eauto; cbn; tauto. }
          { intros X. exfalso. rewrite existsb_app in X. cbn [existsb mkw wk_pc quitpc orb] in X.
            apply orb_true_iff in X as [X|X]; apply existsb_exists in X as (y & Iy & Xy);
              [rewrite Forall_forall in Ho1; apply Ho1 in Iy|rewrite Forall_forall in Ho2; apply Ho2 in Iy];
              destruct Iy as [_ C]; destruct (wk_pc y); cbn in *; try discriminate; auto. }
        * right. left. inversion Hh; subst. apply Dn.
          { split; cbn; auto. }
          { intros I. apply in_app_iff in I as [I|[I|[]]]; [auto|discriminate]. }
          { rewrite queued_app. apply Forall_app. cbn. auto. }
      + (* another worker moves *)
        assert (Ln : nw < n).
        { destruct Hh as [Ef _]. rewrite <- app_assoc in Fl. cbn in Fl. eapply holder_waits; eauto. }
        apply Forall_app in Ho as [Ho1 Ho]. apply Forall_app in Ho as [Ho2 Ho]. inversion Ho as [|? ? [Hl Hc] Ho3]; subst.
        destruct (other_step _ _ _ _ _ _ _ _ _ _ _ T Ln Hn Hq Hl Hc) as (A & B & C & D).
        right. left. split; auto. split; auto. exists a, h, (c ++ w' :: l2). rewrite <- app_assoc. split; auto.
        split; auto. rewrite !Forall_app. auto.
      + assert (Ln : nw < n).
        { destruct Hh as [Ef _]. change (l1 ++ w :: c ++ h :: b) with (l1 ++ (w :: c) ++ h :: b) in Fl.
          rewrite app_assoc in Fl. eapply holder_waits; eauto. }
        apply Forall_app in Ho as [Ho Ho3]. apply Forall_app in Ho as [Ho1 Ho]. inversion Ho as [|? ? [Hl Hc] Ho2]; subst.
        destruct (other_step _ _ _ _ _ _ _ _ _ _ _ T Ln Hn Hq Hl Hc) as (A & B & C & D).
        right. left. split; auto. split; auto. exists (l1 ++ w' :: c), h, b. rewrite <- app_assoc. split; auto.
        split; auto. rewrite <- app_assoc. cbn. rewrite Forall_app. split; auto. constructor; auto.
        rewrite Forall_app. auto.
    - (* phase 2 *)
      right. right. apply Forall_app in Hw as [Hw1 Hw]. inversion Hw as [|? ? Hl Hw2]; subst.
      destruct (leaf_step _ _ _ _ _ _ _ _ _ _ _ T Hs Hq Hl) as (A & B & C & D & E').
      split; auto. split; auto. cbn [mkp ps_queue ps_workers]. split; [apply Forall_app; auto|].
      rewrite existsb_app. cbn [existsb]. intros X. rewrite existsb_app in He. cbn [existsb] in He.
      destruct (existsb _ l1); [auto|]. cbn [orb] in *.
      destruct (existsb _ l2); [apply D, He, orb_true_r|]. rewrite orb_false_r in *.
      destruct (E' X) as [Y|Y]; auto.
  Qed.

  Lemma flat_complete root g sched : Forall leaf (kids root) -> 0 < n ->
    let s := steps run n (start n root g) sched in
    pool_status s = AllReturned -> queued (ps_queue s) = [].
  Proof.
    intros F Hn s E.
    assert (P : phases root s).
    { apply steps_inv; [intros; eapply phase_trans; eauto|].
      split; [apply flags_start|]. left. split; auto. cbn. clear. induction n; cbn; auto. }
    destruct P as [Fl P]. pose proof (returned_hands _ E) as (_ & _ & D).
    destruct Fl as [Hl _]. destruct (ps_workers s) as [|w l] eqn:Ew; [cbn in Hl; lia|].
    assert (Dw : wk_pc w = PDone).
    { specialize (D w (or_introl eq_refl)). unfold is_done in D. destruct (wk_pc w); auto; discriminate. }
    destruct P as [[_ H]|[(_ & _ & a & h & b & Eh & [_ Hh] & _)|(_ & _ & _ & H)]].
    - rewrite Ew in H. inversion H; subst. intuition congruence.
    - exfalso. assert (X : is_done h = true) by (apply D; rewrite <- Ew, Eh; apply in_app_iff; cbn; auto).
      unfold is_done in X. destruct (wk_pc h); try discriminate; auto.
    - apply H. rewrite Ew. cbn. rewrite Dw. auto.
  Qed.

  (** *** One worker *)
  Lemma single_complete root g sched : n = 1 ->
    let s := steps run n (start n root g) sched in
    pool_status s = AllReturned -> queued (ps_queue s) = [].
  Proof.
    intros E1 s E.
    assert (P : flags n s /\
      ((noquit (ps_queue s) /\ Forall (fun w => match wk_pc w with PTry | PGot1 _ | PGot2 _ | PRun _ | PSend _ | PPanicked => True | _ => False end) (ps_workers s))
       \/ (queued (ps_queue s) = [] /\ Forall (fun w => hand (wk_pc w) = []) (ps_workers s)))).
    { apply steps_inv.
      - clear - E1. intros q nw nq l1 w l2 g w' q' nw' nq' g' ab [Fl H] T.
        split; [eapply flags_trans; eauto|].
        destruct Fl as [Hl _]. cbn [mkp ps_queue ps_workers] in *.
        assert (l1 = [] /\ l2 = []) as [-> ->].
        { rewrite app_length in Hl. cbn in Hl. destruct l1, l2; cbn in Hl; auto; lia. }
        cbn [app] in *. destruct H as [[N H]|[Q H]]; inversion H as [|? ? Hw _]; subst.
        + inv_trans T; cbn [mkw wk_pc] in *; try contradiction; auto.
          * left. split; [intros I; apply N; right; auto|auto].
          * exfalso. apply N. left. auto.
          * left. split; auto. intros I. apply in_app_iff in I as [I|[I|[]]]; [auto|discriminate].
        + inv_trans T; cbn [mkw wk_pc hand] in *; try discriminate; try (right; auto; fail).
          right. rewrite queued_app. cbn. rewrite Q. auto.
      - split; [apply flags_start|]. left. cbn. split; [intros [I|[]]; discriminate|]. clear. induction n; cbn; constructor; cbn; auto. }
    destruct P as [[Hl _] P]. pose proof (returned_hands _ E) as (_ & _ & D).
    destruct (ps_workers s) as [|w l] eqn:Ew; [cbn in Hl; lia|].
    destruct P as [[_ H]|[Q _]]; auto. inversion H as [|? ? Hw _]; subst.
    specialize (D w (or_introl eq_refl)). unfold is_done in D. destruct (wk_pc w); try discriminate; contradiction.
  Qed.
End Complete.

(** *** No deadlock *)
Section Live.
  Context {W G R : Type}.
  Variable run : runner W G R.
  Variable n : nat.
  Variable kids : W -> list W.

  (** Total work below an item on which [run] always completes *)
  Inductive gsize : W -> nat -> Prop :=
  | gs_node x m : (forall g, exists g' r, run x g = Done (g', kids x, r)) -> gsizes (kids x) m -> gsize x (S m)
  with gsizes : list W -> nat -> Prop :=
  | gs_nil : gsizes [] 0
  | gs_cons x l a b : gsize x a -> gsizes l b -> gsizes (x :: l) (a + b).

  Lemma gsizes_app a b m : gsizes (a ++ b) m <-> exists i j, gsizes a i /\ gsizes b j /\ m = i + j.
  Proof.
    revert m. induction a as [|x a IH]; intros m; cbn.
    - split; [intros H; exists 0, m; split; [constructor|auto]|intros (i & j & Ha & Hb & ->)]. inversion Ha; subst. auto.
    - split.
      + intros H. inversion H as [|? ? k l Hx Hl]; subst. apply IH in Hl as (i & j & Ha & Hb & ->).
        exists (k + i), j. split; [constructor; auto|]. split; [auto|lia].
      + intros (i & j & Ha & Hb & ->). inversion Ha as [|? ? k l Hx Hl]; subst.
        replace (k + l + j) with (k + (l + j)) by lia. constructor; auto. apply IH. eauto.
  Qed.

  Notation State q nw nq ws g := (@mkp W G R q nw nq ws g false).
  Definition sized (s : pool W G R) (m : nat) : Prop :=
    exists i j, gsizes (queued (ps_queue s)) i /\ gsizes (hands s) j /\ m = i + j.
  Lemma hands_mid q nw nq l1 w l2 (g : G) ab :
    hands (mkp q nw nq (l1 ++ w :: l2) g ab) = hands (mkp q nw nq l1 g ab) ++ hand (@wk_pc W R w) ++ hands (mkp q nw nq l2 g ab).
  Proof. unfold hands. cbn [mkp ps_workers]. rewrite flat_map_app. reflexivity. Qed.

  (** The same with the parts of one worker separated out *)
  Lemma sized_mid q nw nq l1 w l2 (g : G) m : sized (State q nw nq (l1 ++ w :: l2) g) m <->
    exists i j k, gsizes (queued q) i /\ gsizes (hand (@wk_pc W R w)) j /\
      gsizes (flat_map (fun w => hand (wk_pc w)) (l1 ++ l2)) k /\ m = i + j + k.
  Proof.
    unfold sized, hands. cbn [mkp ps_queue ps_workers]. rewrite !flat_map_app. cbn [flat_map].
    split.
    - intros (i & j & Hi & Hj & ->). apply gsizes_app in Hj as (a & b & Ha & Hb & ->).
      apply gsizes_app in Hb as (c & d & Hc & Hd & ->). exists i, c, (a + d). repeat split; auto; [|lia].
      apply gsizes_app. eauto.
    - intros (i & j & k & Hi & Hj & Hk & ->). apply gsizes_app in Hk as (a & b & Ha & Hb & ->).
      exists i, (a + (j + b)). repeat split; auto; [|lia]. apply gsizes_app. exists a, (j + b). repeat split; auto.
      apply gsizes_app. eauto.
  Qed.

  Lemma step_at q nw nq l1 w l2 g :
    step run n (State q nw nq (l1 ++ w :: l2) g) (List.length l1) =
    let '(w', q', nw', nq', g', ab) := wstep run n w q nw nq g in mkp q' nw' nq' (l1 ++ w' :: l2) g' ab.
  Proof.
    unfold step. cbn [mkp ps_aborted ps_workers ps_queue ps_nwait ps_nquit ps_ext].
    rewrite nth_error_app2, Nat.sub_diag by lia. cbn [nth_error].
    destruct (wstep run n w q nw nq g) as [[[[[w' q'] nw'] nq'] g'] ab].
    unfold mkp. f_equal. clear. induction l1; cbn; auto. f_equal. auto.
  Qed.
  Lemma steps_app s a b : steps run n s (a ++ b) = steps run n (steps run n s a) b.
  Proof. apply fold_left_app. Qed.

  (** Reaching a state by some schedule *)
  Definition reach (s s' : pool W G R) : Prop := exists sched, steps run n s sched = s'.
  Lemma reach_refl s : reach s s. Proof. exists []. auto. Qed.
  Lemma reach_trans a b c : reach a b -> reach b c -> reach a c.
  Proof. intros [x Hx] [y Hy]. exists (x ++ y). rewrite steps_app. congruence. Qed.
  Lemma reach_step q nw nq l1 w l2 g w' q' nw' nq' g' s :
    wstep run n w q nw nq g = (w', q', nw', nq', g', false) ->
    reach (State q' nw' nq' (l1 ++ w' :: l2) g') s -> reach (State q nw nq (l1 ++ w :: l2) g) s.
  Proof.
    intros E [x Hx]. exists (List.length l1 :: x).
    change (steps run n ?s (?i :: ?l)) with (steps run n (step run n s i) l).
    rewrite step_at, E. auto.
  Qed.
  Lemma reach_flags s s' : reach s s' -> flags n s -> flags n s'.
  Proof. intros [x <-]. apply flags_steps. Qed.

  Definition idle (w : worker W R) : Prop := wk_pc w = PTry \/ wk_pc w = PLoadWait \/ wk_pc w = PDone.

  Lemma send_all xs q nw nq l1 a b l l2 g :
    reach (State q nw nq (l1 ++ mkw (PSend xs) a b l :: l2) g)
          (State (q ++ List.map MWork xs) nw nq (l1 ++ mkw PTry a b l :: l2) g).
  Proof.
    revert q. induction xs as [|x xs IH]; intros q.
    - eapply reach_step; [reflexivity|]. cbn. rewrite app_nil_r. apply reach_refl.
    - eapply reach_step; [reflexivity|]. cbn [List.map].
      replace (q ++ MWork x :: List.map MWork xs) with ((q ++ [MWork x]) ++ List.map MWork xs)
        by (rewrite <- app_assoc; auto). apply IH.
  Qed.
  Lemma send_quits k q nw nq l1 a b l l2 g :
    reach (State q nw nq (l1 ++ mkw (PSendQuit k) a b l :: l2) g)
          (State (q ++ repeat MQuit k) nw nq (l1 ++ mkw PTry a b l :: l2) g).
  Proof.
    revert q. induction k as [|k IH]; intros q.
    - eapply reach_step; [reflexivity|]. cbn. rewrite app_nil_r. apply reach_refl.
    - eapply reach_step; [reflexivity|]. cbn [repeat].
      replace (q ++ MQuit :: repeat MQuit k) with ((q ++ [MQuit]) ++ repeat MQuit k)
        by (rewrite <- app_assoc; auto). apply IH.
  Qed.
  Lemma queued_works xs : queued (List.map (@MWork W) xs) = xs.
  Proof. induction xs; cbn; auto. f_equal. auto. Qed.
  Lemma queued_quits k : queued (repeat (@MQuit W) k) = [].
  Proof. induction k; cbn; auto. Qed.

  Ltac st := unfold wstep; cbn [mkw wk_pc wk_waiting wk_quitting wk_log].

  (** From any program point a worker can be driven to an idle one, the others not moving *)
  Lemma drive q nw nq l1 w l2 g m :
    sized (State q nw nq (l1 ++ w :: l2) g) m -> wk_pc w <> PPanicked ->
    exists q' nw' nq' w' g' m', reach (State q nw nq (l1 ++ w :: l2) g) (State q' nw' nq' (l1 ++ w' :: l2) g') /\
      idle w' /\ sized (State q' nw' nq' (l1 ++ w' :: l2) g') m' /\
      (m' < m \/ (m' = m /\ hand (wk_pc w) = [] \/ m' = m /\ exists xs, wk_pc w = PSend xs)).
  Proof.
    intros S Np. destruct w as [p a b l]. fold (mkw p a b l) in *.
    assert (Run : forall x q nw nq a b, sized (State q nw nq (l1 ++ mkw (PRun x) a b l :: l2) g) m ->
       exists q' nw' nq' w' g' m', reach (State q nw nq (l1 ++ mkw (PRun x) a b l :: l2) g) (State q' nw' nq' (l1 ++ w' :: l2) g') /\
         idle w' /\ sized (State q' nw' nq' (l1 ++ w' :: l2) g') m' /\ m' < m).
    { clear. intros x q nw nq a b S. apply sized_mid in S as (i & j & k & Hi & Hj & Hk & ->).
      cbn [mkw wk_pc hand] in Hj. inversion Hj as [|? ? c d Hx Hd]; subst. inversion Hd; subst. inversion Hx as [? e Hr He]; subst.
      destruct (Hr g) as (g' & r & Er).
      do 5 eexists. exists (i + e + k). split; [|split; [|split]].
      - eapply reach_step; [st; rewrite Er; reflexivity|]. cbn [mkw wk_log wk_waiting wk_quitting].
        apply (send_all (kids x) q nw nq l1 a b (l ++ [(x, kids x, r)]) l2 g').
      - left. reflexivity.
      - apply sized_mid. exists (i + e), 0, k. cbn [mkw wk_pc hand].
        split; [|split; [constructor|split; [auto|lia]]].
        rewrite queued_app, queued_works. apply gsizes_app. eauto.
      - lia. }
    assert (Re : forall q' nw' nq' p' a' b', hand p' = hand p -> queued q' = queued q ->
       sized (State q' nw' nq' (l1 ++ mkw p' a' b' l :: l2) g) m).
    { intros. apply sized_mid in S as (i & j & k & Hi & Hj & Hk & ->). apply sized_mid. cbn [mkw wk_pc] in *.
      exists i, j, k. rewrite H, H0. auto. }
    assert (Id : forall q' nw' nq' p' a' b', hand p = [] -> hand p' = [] -> queued q' = queued q ->
       (p' = PTry \/ p' = PLoadWait \/ p' = PDone) ->
       reach (State q nw nq (l1 ++ mkw p a b l :: l2) g) (State q' nw' nq' (l1 ++ mkw p' a' b' l :: l2) g) ->
       exists q' nw' nq' w' g' m', reach (State q nw nq (l1 ++ mkw p a b l :: l2) g) (State q' nw' nq' (l1 ++ w' :: l2) g') /\
      idle w' /\ sized (State q' nw' nq' (l1 ++ w' :: l2) g') m' /\
      (m' < m \/ (m' = m /\ hand p = [] \/ m' = m /\ exists xs, p = PSend xs))).
    { intros q' nw' nq' p' a' b' H1 H2 H3 H4 H5. do 5 eexists. exists m. split; [exact H5|]. split; [exact H4|].
      split; [apply Re; congruence|auto]. }
    assert (Quit : forall k q' nw' nq' a' b', hand p = [] -> queued q' = queued q ->
       reach (State q nw nq (l1 ++ mkw p a b l :: l2) g) (State q' nw' nq' (l1 ++ mkw (PSendQuit k) a' b' l :: l2) g) ->
       reach (State q nw nq (l1 ++ mkw p a b l :: l2) g) (State (q' ++ repeat MQuit k) nw' nq' (l1 ++ mkw PTry a' b' l :: l2) g)).
    { intros. eapply reach_trans; [eassumption|]. apply send_quits. }
    cbn [mkw wk_pc] in *.
    destruct p as [ |x|x|x|xs| | | |k| | | |k| | ]; try congruence.
    - eapply (Id q nw nq PTry a b); auto. apply reach_refl.
    - assert (S' := Re q (set_flag a false nw) (set_flag b false nq) (PRun x) false false eq_refl eq_refl).
      destruct (Run x _ _ _ _ _ S') as (q' & nw' & nq' & w' & g' & m' & H1 & H2 & H3 & H4).
      do 5 eexists. exists m'. split; [|eauto].
      eapply reach_step; [reflexivity|]. eapply reach_step; [reflexivity|]. exact H1.
    - assert (S' := Re q nw (set_flag b false nq) (PRun x) a false eq_refl eq_refl).
      destruct (Run x _ _ _ _ _ S') as (q' & nw' & nq' & w' & g' & m' & H1 & H2 & H3 & H4).
      do 5 eexists. exists m'. split; [|eauto]. eapply reach_step; [reflexivity|]. exact H1.
    - destruct (Run x _ _ _ _ _ S) as (q' & nw' & nq' & w' & g' & m' & H1 & H2 & H3 & H4).
      do 5 eexists. exists m'. eauto.
    - do 5 eexists. exists m. split; [apply send_all|]. split; [left; reflexivity|]. split; [|eauto].
      apply sized_mid in S as (i & j & k & Hi & Hj & Hk & ->). apply sized_mid. cbn [mkw wk_pc hand] in *.
      exists (i + j), 0, k. rewrite queued_app, queued_works. repeat split; [apply gsizes_app; eauto|constructor|auto|lia].
    - eapply (Id q _ _ PLoadWait true true); auto.
      eapply reach_step; [reflexivity|]. eapply reach_step; [reflexivity|]. apply reach_refl.
    - eapply (Id q _ _ PLoadWait a true); auto. eapply reach_step; [reflexivity|]. apply reach_refl.
    - eapply (Id q nw nq PLoadWait a b); auto. apply reach_refl.
    - destruct (k <? n) eqn:E1; [|destruct (Nat.eqb nq n) eqn:E2].
      + eapply (Id q nw nq PTry a b); auto. eapply reach_step; [st; rewrite E1; reflexivity|]. apply reach_refl.
      + eapply (Id q nw nq PDone a b); auto. eapply reach_step; [st; rewrite E1, E2; reflexivity|]. apply reach_refl.
      + eapply (Id q nw nq PLoadWait a b); auto. eapply reach_step; [st; rewrite E1, E2; reflexivity|]. apply reach_refl.
    - destruct (Nat.eqb (set_flag a true nw) n) eqn:E.
      + eapply (Id (q ++ repeat MQuit n) _ _ PTry true false); auto; [rewrite queued_app, queued_quits, app_nil_r; auto|].
        apply Quit; auto. eapply reach_step; [reflexivity|]. eapply reach_step; [reflexivity|].
        eapply reach_step; [st; rewrite E; reflexivity|]. apply reach_refl.
      + eapply (Id q _ _ PTry true false); auto. eapply reach_step; [reflexivity|]. eapply reach_step; [reflexivity|].
        eapply reach_step; [st; rewrite E; reflexivity|]. apply reach_refl.
    - destruct (Nat.eqb nw n) eqn:E.
      + eapply (Id (q ++ repeat MQuit n) _ _ PTry a false); auto; [rewrite queued_app, queued_quits, app_nil_r; auto|].
        apply Quit; auto. eapply reach_step; [reflexivity|].
        eapply reach_step; [st; rewrite E; reflexivity|]. apply reach_refl.
      + eapply (Id q _ _ PTry a false); auto. eapply reach_step; [reflexivity|].
        eapply reach_step; [st; rewrite E; reflexivity|]. apply reach_refl.
    - destruct (Nat.eqb nw n) eqn:E.
      + eapply (Id (q ++ repeat MQuit n) _ _ PTry a b); auto; [rewrite queued_app, queued_quits, app_nil_r; auto|].
        apply Quit; auto. eapply reach_step; [st; rewrite E; reflexivity|]. apply reach_refl.
      + eapply (Id q _ _ PTry a b); auto. eapply reach_step; [st; rewrite E; reflexivity|]. apply reach_refl.
    - eapply (Id (q ++ repeat MQuit k) nw nq PTry a b); auto; [rewrite queued_app, queued_quits, app_nil_r; auto|].
      apply send_quits.
    - eapply (Id q nw nq PDone a b); auto. apply reach_refl.
  Qed.

  Definition nopanic (s : pool W G R) : Prop := Forall (fun w => wk_pc w <> PPanicked) (ps_workers s).

  Lemma idle_nopanic w : idle w -> wk_pc w <> PPanicked.
  Proof. intros [H|[H|H]]; rewrite H; discriminate. Qed.

  Lemma all_idle l2 : forall q nw nq l1 g m,
    sized (State q nw nq (l1 ++ l2) g) m -> Forall idle l1 -> nopanic (State q nw nq (l1 ++ l2) g) ->
    exists q' nw' nq' ws' g' m', reach (State q nw nq (l1 ++ l2) g) (State q' nw' nq' ws' g') /\
      Forall idle ws' /\ sized (State q' nw' nq' ws' g') m'.
  Proof.
    induction l2 as [|w l2 IH]; intros q nw nq l1 g m S F N.
    - rewrite app_nil_r in *. do 5 eexists. exists m. split; [apply reach_refl|]. auto.
    - unfold nopanic in N. cbn [mkp ps_workers] in N. apply Forall_app in N as [N1 N2]. inversion N2 as [|? ? Nw N3]; subst.
      destruct (drive _ _ _ _ _ _ _ _ S Nw) as (q' & nw' & nq' & w' & g' & m' & H1 & H2 & H3 & _).
      replace (l1 ++ w' :: l2) with ((l1 ++ [w']) ++ l2) in * by (rewrite <- app_assoc; auto).
      destruct (IH q' nw' nq' (l1 ++ [w']) g' m') as (q2 & nw2 & nq2 & ws2 & g2 & m2 & K1 & K2 & K3); auto.
      { apply Forall_app. auto. }
      { unfold nopanic. cbn [mkp ps_workers]. rewrite !Forall_app. repeat split; auto. constructor; auto. apply idle_nopanic; auto. }
      do 5 eexists. exists m2. split; [eapply reach_trans; eauto|]. auto.
  Qed.

  Definition is_try (w : worker W R) : bool := match wk_pc w with PTry => true | _ => false end.
  Definition tries (ws : list (worker W R)) : nat := List.length (filter is_try ws).
  Lemma tries_mid l1 w l2 : tries (l1 ++ w :: l2) = (if is_try w then 1 else 0) + tries (l1 ++ l2).
  Proof. unfold tries. rewrite !filter_app. cbn [filter]. destruct (is_try w); rewrite !app_length; cbn; lia. Qed.

  (** No worker is looking for work: everybody returns *)
  Lemma finish l2 : forall q l1 g,
    Forall (fun w => wk_pc w = PDone) l1 -> Forall (fun w => wk_pc w = PLoadWait \/ wk_pc w = PDone) l2 ->
    exists s, reach (State q n n (l1 ++ l2) g) s /\ pool_status s = AllReturned /\ ps_queue s = q.
  Proof.
    induction l2 as [|w l2 IH]; intros q l1 g F1 F2.
    - rewrite app_nil_r. eexists. split; [apply reach_refl|]. split; [|reflexivity]. unfold pool_status. cbn [mkp ps_aborted ps_workers].
      assert (E1 : forallb (fun w => is_done w || is_panicked w) l1 = true).
      { apply forallb_forall. rewrite Forall_forall in F1. intros w I. unfold is_done. rewrite F1; auto. }
      assert (E2 : existsb is_panicked l1 = false).
      { destruct (existsb is_panicked l1) eqn:E; auto. apply existsb_exists in E as (w & I & P).
        rewrite Forall_forall in F1. unfold is_panicked in P. rewrite F1 in P; auto. }
      rewrite E1, E2. auto.
    - inversion F2 as [|? ? Hw F3]; subst.
      assert (K : forall a b l, exists s, reach (State q n n (l1 ++ mkw PDone a b l :: l2) g) s /\ pool_status s = AllReturned /\ ps_queue s = q).
      { intros. replace (l1 ++ mkw PDone a b l :: l2) with ((l1 ++ [mkw PDone a b l]) ++ l2) by (rewrite <- app_assoc; auto).
        apply IH; auto. apply Forall_app. auto. }
      destruct w as [p a b l]. cbn [wk_pc] in Hw. fold (mkw p a b l). destruct Hw; subst p; auto.
      destruct (K a b l) as (s & H & E). exists s. split; auto.
      eapply reach_step; [st; reflexivity|]. eapply reach_step; [|exact H].
      st. rewrite Nat.ltb_irrefl, Nat.eqb_refl. reflexivity.
  Qed.

  Definition third (q : list (msg W)) (nw : nat) : nat := match q with [] => S (n - nw) | _ => 0 end.

  Lemma can_return m : forall p t q nw nq ws g,
    sized (State q nw nq ws g) m -> tries ws = p -> third q nw = t ->
    flags n (State q nw nq ws g) -> Forall idle ws ->
    exists s, reach (State q nw nq ws g) s /\ pool_status s = AllReturned.
  Proof.
    induction m as [m IHm] using lt_wf_ind. induction p as [p IHp] using lt_wf_ind. induction t as [t IHt] using lt_wf_ind.
    intros q nw nq ws g S Ep Et Fl Id.
    destruct (tries ws) eqn:Ety.
    - (* nobody looks for work *)
      assert (F : Forall (fun w => wk_pc w = PLoadWait \/ wk_pc w = PDone) ws).
      { apply Forall_forall. intros w I. rewrite Forall_forall in Id. destruct (Id w I) as [H|H]; auto.
        exfalso. assert (In w (filter is_try ws)) by (apply filter_In; split; auto; unfold is_try; rewrite H; auto).
        unfold tries in Ety. destruct (filter is_try ws); [auto|discriminate]. }
      assert (nw = n /\ nq = n) as [-> ->].
      { destruct Fl as (Hl & Hw & Hq & Hf). cbn [mkp ps_workers ps_nwait ps_nquit] in *.
        assert (X : nwaiting ws = List.length ws /\ nquitting ws = List.length ws).
        { clear - F Hf. induction ws as [|w l IH]; auto. inversion F; inversion Hf; subst. destruct IH; auto.
          rewrite nwaiting_cons, nquitting_cons. unfold pc_flags in H5. cbn [List.length].
          destruct H1 as [H1|H1]; rewrite H1 in H5; destruct H5 as [-> ->]; cbn; lia. }
        lia. }
      destruct (finish ws q [] g) as (s & Rs & Es & _); eauto.
    - (* pick a worker *)
      assert (Pick : (exists l1 a b l l2, ws = l1 ++ mkw PTry a b l :: l2 /\ (q = [] -> nw < n -> a = false))).
      { assert (A : exists w, In w ws /\ wk_pc w = PTry /\ (q = [] -> nw < n -> wk_waiting w = false)).
        { destruct (Nat.ltb nw n) eqn:Lt; [apply Nat.ltb_lt in Lt|apply Nat.ltb_ge in Lt].
          - destruct Fl as (Hl & Hw & _ & Hf). cbn [mkp ps_workers ps_nwait] in *.
            assert (X : exists w, In w ws /\ wk_waiting w = false).
            { assert (L : nwaiting ws < List.length ws) by lia. clear - L. induction ws as [|w l IH]; [cbn in L; lia|].
              destruct (wk_waiting w) eqn:E; [|exists w; cbn; auto].
              rewrite nwaiting_cons, E in L. cbn in L. destruct IH as (v & I & Ev); [lia|]. exists v. cbn. auto. }
            destruct X as (w & I & E). exists w. split; auto. split; auto.
            rewrite Forall_forall in Id, Hf. specialize (Hf w I). destruct (Id w I) as [H|[H|H]]; auto;
              unfold pc_flags in Hf; rewrite H in Hf; destruct Hf; congruence.
          - assert (X : exists w, In w (filter is_try ws)).
            { unfold tries in Ety. destruct (filter is_try ws) as [|w ?]; [discriminate|]. exists w. cbn. auto. }
            destruct X as (w & I). apply filter_In in I as [I H]. exists w. split; auto. split; [|intros; lia].
            unfold is_try in H. destruct (wk_pc w); auto; discriminate. }
        destruct A as (w & I & H & Hf). apply in_split in I as (l1 & l2 & ->).
        destruct w as [p' a b l]. cbn [wk_pc wk_waiting] in *. subst p'. exists l1, a, b, l, l2. auto. }
      destruct Pick as (l1 & a & b & l & l2 & -> & Ha).
      assert (Idm : forall w, idle w -> Forall idle (l1 ++ w :: l2)).
      { intros w H. apply Forall_app in Id as [I1 I2]. inversion I2; subst. apply Forall_app. auto. }
      rewrite tries_mid in Ety. cbn [is_try mkw wk_pc] in Ety.
      destruct q as [|[x|] q].
      + (* empty channel *)
        destruct (Nat.eqb (set_flag a true nw) n) eqn:E.
        * assert (Rc : reach (State [] nw nq (l1 ++ mkw PTry a b l :: l2) g)
                   (State (repeat MQuit n) (set_flag a true nw) (set_flag b false nq) (l1 ++ mkw PTry true false l :: l2) g)).
          { do 4 (eapply reach_step; [st; rewrite ?E; reflexivity|]). apply (send_quits n []). }
          pose proof (reach_flags _ _ Rc Fl) as Fl'.
          assert (Hn : n <> 0).
          { destruct Fl as (Hl & _). cbn [mkp ps_workers] in Hl. rewrite app_length in Hl. cbn in Hl. lia. }
          assert (Q : third (repeat MQuit n) (set_flag a true nw) = 0) by (destruct n; [lia|reflexivity]).
          destruct (IHt 0) with (q := repeat (@MQuit W) n) (nw := set_flag a true nw) (nq := set_flag b false nq)
                               (ws := l1 ++ mkw PTry true false l :: l2) (g := g) as (s & Rs & Es); auto.
          { subst t. cbn. lia. }
          { apply sized_mid in S as (i & j & k & Hi & Hj & Hk & ->). apply sized_mid. exists i, j, k.
            rewrite queued_quits. auto. }
          { rewrite tries_mid. cbn [is_try mkw wk_pc]. lia. }
          { apply Idm. left. reflexivity. }
          exists s. split; auto. eapply reach_trans; eauto.
        * assert (Rc : reach (State [] nw nq (l1 ++ mkw PTry a b l :: l2) g)
                   (State [] (set_flag a true nw) (set_flag b false nq) (l1 ++ mkw PTry true false l :: l2) g)).
          { do 4 (eapply reach_step; [st; rewrite ?E; reflexivity|]). apply reach_refl. }
          pose proof (reach_flags _ _ Rc Fl) as Fl'.
          assert (Lt : nw < n).
          { destruct Fl as (Hl & Hw & _). cbn [mkp ps_workers ps_nwait] in *. pose proof (nwaiting_le (l1 ++ mkw PTry a b l :: l2)).
            apply Nat.eqb_neq in E. destruct a; cbn in E; [lia|].
            rewrite nwaiting_app, nwaiting_cons in Hw. rewrite app_length in Hl. cbn [List.length mkw wk_waiting b2n] in *.
            pose proof (nwaiting_le l1). pose proof (nwaiting_le l2). lia. }
          rewrite Ha in * by auto. cbn [set_flag] in *.
          destruct (IHt (third [] (Datatypes.S nw))) with (q := @nil (msg W)) (nw := Datatypes.S nw) (nq := set_flag b false nq)
                               (ws := l1 ++ mkw PTry true false l :: l2) (g := g) as (s & Rs & Es); auto.
          { subst t. cbn [third]. lia. }
          { apply sized_mid in S as (i & j & k & Hi & Hj & Hk & ->). apply sized_mid. exists i, j, k. auto. }
          { rewrite tries_mid. cbn [is_try mkw wk_pc]. lia. }
          { apply Idm. left. reflexivity. }
          exists s. split; auto. eapply reach_trans; eauto.
      + (* work *)
        assert (S' : sized (State q nw nq (l1 ++ mkw (PGot1 x) a b l :: l2) g) m).
        { apply sized_mid in S as (i & j & k & Hi & Hj & Hk & ->). rewrite queued_work in Hi.
          inversion Hi as [|? ? c d Hx Hd]; subst. apply sized_mid. exists d, (c + 0), k. cbn [mkw wk_pc hand] in *.
          split; auto. split; [constructor; [auto|constructor]|]. split; auto. inversion Hj; subst. lia. }
        destruct (drive _ _ _ _ _ _ _ _ S') as (q' & nw' & nq' & w' & g' & m' & H1 & H2 & H3 & H4); [discriminate|].
        assert (Lt : m' < m).
        { cbn [mkw wk_pc hand] in H4. destruct H4 as [H4|[[_ H4]|[_ [xs H4]]]]; [auto|discriminate|discriminate]. }
        assert (Rc : reach (State (MWork x :: q) nw nq (l1 ++ mkw PTry a b l :: l2) g) (State q' nw' nq' (l1 ++ w' :: l2) g')).
        { eapply reach_step; [st; reflexivity|]. exact H1. }
        destruct (IHm m' Lt _ _ q' nw' nq' (l1 ++ w' :: l2) g' H3 eq_refl eq_refl (reach_flags _ _ Rc Fl)) as (s & Rs & Es); auto.
        exists s. split; auto. eapply reach_trans; eauto.
      + (* quit *)
        assert (Rc : reach (State (MQuit :: q) nw nq (l1 ++ mkw PTry a b l :: l2) g)
                 (State q (set_flag a true nw) (set_flag b true nq) (l1 ++ mkw PLoadWait true true l :: l2) g)).
        { do 3 (eapply reach_step; [st; reflexivity|]). apply reach_refl. }
        destruct (IHp (tries (l1 ++ mkw PLoadWait true true l :: l2))) with (t := third q (set_flag a true nw)) (q := q)
             (nw := set_flag a true nw) (nq := set_flag b true nq) (ws := l1 ++ mkw PLoadWait true true l :: l2) (g := g)
             as (s & Rs & Es); auto.
        { rewrite tries_mid. cbn [is_try mkw wk_pc]. lia. }
        { apply sized_mid in S as (i & j & k & Hi & Hj & Hk & ->). apply sized_mid. exists i, j, k. auto. }
        { eapply reach_flags; eauto. }
        { apply Idm. right. left. reflexivity. }
        exists s. split; auto. eapply reach_trans; eauto.
  Qed.

  (** Reachable states *)
  Hypothesis run_kids : forall x g g' ch r, run x g = Done (g', ch, r) -> ch = kids x.
  Definition live (s : pool W G R) : Prop := (exists m, sized s m) /\ nopanic s /\ ps_aborted s = false.
  Lemma live_steps s sched : live s -> live (steps run n s sched).
  Proof.
    apply steps_inv. clear s sched.
    intros q nw nq l1 w l2 g w' q' nw' nq' g' ab ([m S] & N & _) T.
    assert (A : ab = false /\ (wk_pc w <> PPanicked -> wk_pc w' <> PPanicked) /\ exists m', sized (State q' nw' nq' (l1 ++ w' :: l2) g') m').
    { apply sized_mid in S as (i & j & k & Hi & Hj & Hk & ->).
      assert (D : forall i' j', gsizes (queued q') i' -> gsizes (hand (wk_pc w')) j' -> exists m', sized (State q' nw' nq' (l1 ++ w' :: l2) g') m').
      { intros i' j' A B. exists (i' + j' + k). apply sized_mid. exists i', j', k. auto. }
      clear N. inv_trans T; cbn [mkw wk_pc hand] in *; try (split; [auto|]; split; [auto; discriminate|]; eapply D; eauto; fail).
      - split; auto. split; [discriminate|]. rewrite queued_work in Hi. inversion Hi; subst. eapply D; eauto.
        constructor; eauto; constructor.
      - split; auto. split; [discriminate|]. apply run_kids in H. subst ch. inversion Hj as [|? ? c d Hx Hd]; subst.
        inversion Hx; subst. eapply D; eauto.
      - exfalso. inversion Hj as [|? ? c d Hx Hd]; subst. inversion Hx as [? e Hr He]; subst.
        destruct (Hr g') as (? & ? & ?). congruence.
      - exfalso. inversion Hj as [|? ? c d Hx Hd]; subst. inversion Hx as [? e Hr He]; subst.
        destruct (Hr g') as (? & ? & ?). congruence.
      - split; auto. split; [discriminate|]. inversion Hj; subst. eapply D; [rewrite queued_app; apply gsizes_app|eauto].
        exists i, (a0 + 0). split; [auto|]. split; [|reflexivity]. cbn. constructor; [auto|constructor].
      - split; auto. split; [discriminate|]. eapply D; [rewrite queued_app; cbn; rewrite app_nil_r; eauto|eauto]. }
    destruct A as (-> & Np & S'). split; auto. split; auto.
    unfold nopanic in *. cbn [mkp ps_workers] in *. apply Forall_app in N as [N1 N2]. inversion N2; subst. apply Forall_app. auto.
  Qed.

  Lemma no_deadlock root g sched m : gsize root m ->
    exists s, reach (steps run n (start n root g) sched) s /\ pool_status s = AllReturned.
  Proof.
    intros Hm.
    assert (L : live (steps run n (start n root g) sched)).
    { apply live_steps. split; [|split; auto].
      - exists (m + 0). exists (m + 0), 0. cbn [start ps_queue queued flat_map app]. split; [constructor; [auto|constructor]|].
        split; [|lia]. unfold hands. cbn [start ps_workers].
        replace (flat_map _ _) with (@nil W); [constructor|]. clear. induction n; cbn; auto.
      - unfold nopanic. cbn. clear. induction n; cbn; constructor; auto. discriminate. }
    assert (Fl : flags n (steps run n (start n root g) sched)) by (apply flags_steps, flags_start).
    destruct (steps run n (start n root g) sched) as [q nw nq ws g0 ab]. destruct L as ([k S] & N & A). cbn in A. subst ab.
    fold (State q nw nq ws g0) in *.
    destruct (all_idle ws q nw nq [] g0 k S (Forall_nil _) N) as (q' & nw' & nq' & ws' & g' & m' & R1 & I & S').
    destruct (can_return m' _ _ q' nw' nq' ws' g' S' eq_refl eq_refl (reach_flags _ _ R1 Fl) I) as (s & R2 & E).
    exists s. split; auto. eapply reach_trans; eauto.
  Qed.

  (** Finite work on which [run] completes has a size *)
  Lemma finite_gsize x : finite kids x -> (forall p y g, node kids x p y -> exists g' r, run y g = Done (g', kids y, r)) ->
    exists m, gsize x m.
  Proof.
    revert x. fix IH 2. intros x F H. destruct F as [x F].
    assert (K : exists m, gsizes (kids x) m).
    { assert (H' : forall y, In y (kids x) -> forall p z g, node kids y p z -> exists g' r, run z g = Done (g', kids z, r)).
      { intros y I p z g N. apply In_nth_error in I as [i Ei].
        assert (X : node kids x ([i] ++ p) z).
        { induction N; [apply (node_child kids x [] x i y); [constructor|auto]|].
          rewrite app_assoc. econstructor; eauto. }
        eapply H; eauto. }
      clear H. revert H'. induction F as [|y l Fy Fl IHl]; intros H'.
      - exists 0. constructor.
      - destruct IHl as [b Hb]; [intros; eapply H'; eauto; cbn; auto|].
        destruct (IH y Fy) as [a Ha]; [intros; eapply H'; eauto; cbn; auto|].
        exists (a + b). constructor; auto. }
    destruct K as [m K]. exists (Datatypes.S m). constructor; auto.
    intros g. apply (H [] x g). constructor.
  Qed.

  (** With one worker the schedule does not matter *)
  Lemma single_sched sched root g : n = 1 ->
    steps run n (start n root g) sched = steps run n (start n root g) (repeat 0 (count_occ Nat.eq_dec sched 0)).
  Proof.
    intros ->. assert (L : List.length (ps_workers (@start W G R 1 root g)) = 1) by auto.
    revert L. generalize (@start W G R 1 root g). induction sched as [|i l IH]; intros s L; auto.
    change (steps run 1 s (i :: l)) with (steps run 1 (step run 1 s i) l).
    assert (L' : List.length (ps_workers (step run 1 s i)) = 1).
    { unfold step. destruct (ps_aborted s); auto. destruct (nth_error (ps_workers s) i); auto.
      destruct (wstep _ _ _ _ _ _ _) as [[[[[? ?] ?] ?] ?] ?]. cbn [ps_workers]. rewrite update_length. auto. }
    destruct i as [|i].
    - cbn [count_occ]. destruct (Nat.eq_dec 0 0); [|congruence]. cbn [repeat].
      change (steps run 1 s (0 :: ?l)) with (steps run 1 (step run 1 s 0) l). auto.
    - cbn [count_occ]. destruct (Nat.eq_dec (Datatypes.S i) 0); [discriminate|].
      replace (step run 1 s (Datatypes.S i)) with s; auto.
      unfold step. destruct (ps_aborted s); auto. destruct (ps_workers s) as [|w [|]]; try discriminate. cbn.
      destruct i; auto.
  Qed.
  Lemma returned_stays s sched : pool_status s = AllReturned -> steps run n s sched = s.
  Proof.
    intros H. assert (E : forall i, step run n s i = s).
    { intros i. unfold step. destruct (ps_aborted s) eqn:Ea; auto. destruct (nth_error (ps_workers s) i) as [w|] eqn:En; auto.
      pose proof (returned_hands _ H) as (_ & _ & D). apply nth_error_In in En as I. specialize (D w I).
      apply nth_split_update in En as (l1 & l2 & Ew & Hl & Eu).
      unfold is_done in D. destruct w as [p a b l]. cbn [wk_pc] in D. destruct p; try discriminate.
      unfold wstep. cbn [wk_pc wk_waiting wk_quitting wk_log].
      rewrite Eu, <- Ew. destruct s. cbn in *. subst. auto. }
    induction sched as [|i l IH]; auto. change (steps run n s (i :: l)) with (steps run n (step run n s i) l). rewrite E. auto.
  Qed.
  Lemma single_terminates root g m : n = 1 -> gsize root m ->
    exists N, forall sched, N <= count_occ Nat.eq_dec sched 0 ->
      pool_status (steps run n (start n root g) sched) = AllReturned.
  Proof.
    intros E1 Hm. destruct (no_deadlock root g [] m Hm) as (s & [sched R1] & E).
    exists (count_occ Nat.eq_dec sched 0). intros sched' L.
    rewrite single_sched by auto. change (steps run n (start n root g) []) with (@start W G R n root g) in R1.
    rewrite single_sched in R1 by auto.
    replace (count_occ Nat.eq_dec sched' 0) with (count_occ Nat.eq_dec sched 0 + (count_occ Nat.eq_dec sched' 0 - count_occ Nat.eq_dec sched 0)) by lia.
    rewrite repeat_app, steps_app, R1, returned_stays; auto.
  Qed.

  (** *** Losing work: with two or more workers, whenever some child of the root has children *)
  Lemma err_others k : forall nw l1 g, nw + k < n ->
    reach (State [] nw 0 (l1 ++ repeat fresh_worker k) g)
          (State [] (nw + k) 0 (l1 ++ repeat (mkw PTry true false []) k) g).
  Proof.
    induction k as [|k IH]; intros nw l1 g L.
    - rewrite Nat.add_0_r. apply reach_refl.
    - cbn [repeat]. change (@fresh_worker W R) with (@mkw W R PTry false false []) at 1.
      assert (E : Nat.eqb (Datatypes.S nw) n = false) by (apply Nat.eqb_neq; lia).
      do 4 (eapply reach_step; [st; cbn [set_flag]; rewrite ?E; reflexivity|]).
      fold (@mkw W R PTry true false []).
      replace (nw + Datatypes.S k) with (Datatypes.S nw + k) by lia.
      replace (l1 ++ mkw PTry true false [] :: repeat fresh_worker k) with ((l1 ++ [mkw PTry true false []]) ++ repeat (@fresh_worker W R) k)
        by (rewrite <- app_assoc; auto).
      replace (l1 ++ mkw PTry true false [] :: repeat (mkw PTry true false []) k)
         with ((l1 ++ [mkw PTry true false []]) ++ repeat (@mkw W R PTry true false []) k)
        by (rewrite <- app_assoc; auto).
      apply IH. lia.
  Qed.

  Lemma process_one x m q nw nq l1 a b l l2 g : gsize x m ->
    exists g' l', reach (State (MWork x :: q) nw nq (l1 ++ mkw PTry a b l :: l2) g)
      (State (q ++ List.map MWork (kids x)) (set_flag a false nw) (set_flag b false nq) (l1 ++ mkw PTry false false l' :: l2) g').
  Proof.
    intros Hx. inversion Hx as [? e Hr He]; subst. destruct (Hr g) as (g' & r & Er).
    exists g', (l ++ [(x, kids x, r)]).
    do 3 (eapply reach_step; [st; reflexivity|]).
    eapply reach_step; [st; rewrite Er; reflexivity|]. apply send_all.
  Qed.
  Lemma process_list xs : forall m q nw nq l1 l l2 g, gsizes xs m ->
    exists g' l', reach (State (List.map MWork xs ++ q) nw nq (l1 ++ mkw PTry false false l :: l2) g)
      (State (q ++ List.map MWork (flat_map kids xs)) nw nq (l1 ++ mkw PTry false false l' :: l2) g').
  Proof.
    induction xs as [|x xs IH]; intros m q nw nq l1 l l2 g H.
    - exists g, l. cbn. rewrite app_nil_r. apply reach_refl.
    - inversion H as [|? ? i j Hx Hs]; subst. cbn [List.map app].
      destruct (process_one x i (List.map MWork xs ++ q) nw nq l1 false false l l2 g Hx) as (g1 & l1' & R1).
      cbn [set_flag] in R1. rewrite <- app_assoc in R1.
      destruct (IH j (q ++ List.map MWork (kids x)) nw nq l1 l1' l2 g1 Hs) as (g2 & l2' & R2).
      exists g2, l2'. cbn [flat_map]. rewrite map_app, app_assoc. eapply reach_trans; eauto.
  Qed.
  Lemma gsizes_kids xs m : gsizes xs m -> exists m', gsizes (flat_map kids xs) m' /\ m = List.length xs + m'.
  Proof.
    revert m. induction xs as [|x xs IH]; intros m H; inversion H as [|? ? i j Hx Hs]; subst.
    - exists 0. split; [constructor|auto].
    - destruct (IH _ Hs) as (m' & H' & ->). inversion Hx as [? e Hr He]; subst. exists (e + m'). split.
      + cbn. apply gsizes_app. eauto.
      + cbn. lia.
  Qed.
  Lemma process_all m : forall xs nw nq l1 l l2 g, gsizes xs m ->
    exists g' l', reach (State (List.map MWork xs) nw nq (l1 ++ mkw PTry false false l :: l2) g)
      (State [] nw nq (l1 ++ mkw PTry false false l' :: l2) g').
  Proof.
    induction m as [m IH] using lt_wf_ind. intros xs nw nq l1 l l2 g H.
    destruct xs as [|x xs].
    - exists g, l. apply reach_refl.
    - destruct (gsizes_kids _ _ H) as (m' & H' & E). cbn [List.length] in E.
      destruct (process_list (x :: xs) m [] nw nq l1 l l2 g H) as (g1 & l1' & R1). rewrite app_nil_r in R1. cbn [app] in R1.
      destruct (IH m' ltac:(lia) (flat_map kids (x :: xs)) nw nq l1 l1' l2 g1 H') as (g2 & l2' & R2).
      exists g2, l2'. eapply reach_trans; eauto.
  Qed.

  Lemma pop_quits ws : forall q nw nq l1 g, Forall (fun w => wk_pc w = PTry) ws ->
    exists nw' nq' ws', reach (State (repeat MQuit (List.length ws) ++ q) nw nq (l1 ++ ws) g) (State q nw' nq' (l1 ++ ws') g) /\
      Forall (fun w => wk_pc w = PLoadWait) ws' /\ List.length ws' = List.length ws.
  Proof.
    induction ws as [|w ws IH]; intros q nw nq l1 g F.
    - exists nw, nq, []. split; [apply reach_refl|auto].
    - inversion F as [|? ? Hw F']; subst. destruct w as [p a b l]. cbn [wk_pc] in Hw. subst p.
      destruct (IH q (set_flag a true nw) (set_flag b true nq) (l1 ++ [mkw PLoadWait true true l]) g F') as (nw' & nq' & ws' & R1 & F1 & L1).
      exists nw', nq', (mkw PLoadWait true true l :: ws'). split; [|split; [constructor; auto|cbn; auto]].
      rewrite <- !app_assoc in R1. cbn [app] in R1.
      cbn [List.length repeat app]. do 3 (eapply reach_step; [st; reflexivity|]). exact R1.
  Qed.

  Lemma lossy root c xs ys g m : 2 <= n -> kids root = xs ++ c :: ys -> gsize root m ->
    exists s, reach (start n root g) s /\ pool_status s = AllReturned /\ queued (ps_queue s) = kids c.
  Proof.
    intros Hn Ek Hm. destruct n as [|[|k]] eqn:En; try lia. rewrite <- En in *. clear Hn.
    inversion Hm as [? m0 Hr Hk]; subst m x. rewrite Ek in Hk.
    apply gsizes_app in Hk as (m1 & m2 & Hxs & Hc & ->). inversion Hc as [|? ? mc my Gc Gy]; subst.
    destruct (Hr g) as (g1 & r & Er).
    set (F := @fresh_worker W R).
    assert (R1 : reach (start n root g) (State [] 0 0 ([] ++ mkw (PRun root) false false [] :: F :: repeat F k) g)).
    { unfold start. rewrite En. cbn [repeat]. fold F.
      change (F :: F :: repeat F k) with ([] ++ @mkw W R PTry false false [] :: F :: repeat F k).
      do 3 (eapply reach_step; [st; reflexivity|]). apply reach_refl. }
    set (V := @mkw W R PTry true false []).
    assert (R2 : reach (State [] 0 0 ([] ++ mkw (PRun root) false false [] :: F :: repeat F k) g)
                       (State [] (Datatypes.S k) 0 (mkw (PRun root) false false [] :: V :: repeat V k) g)).
    { pose proof (err_others (Datatypes.S k) 0 [mkw (PRun root) false false []] g ltac:(lia)) as R2. exact R2. }
    assert (R3 : reach (State [] (Datatypes.S k) 0 (mkw (PRun root) false false [] :: V :: repeat V k) g)
                       (State (List.map MWork (kids root)) (Datatypes.S k) 0 ([] ++ mkw PTry false false [(root, kids root, r)] :: V :: repeat V k) g1)).
    { change (mkw (PRun root) false false [] :: V :: repeat V k) with ([] ++ mkw (PRun root) false false [] :: V :: repeat V k).
      eapply reach_step; [st; rewrite Er; reflexivity|]. apply (send_all (kids root) []). }
    rewrite Ek, map_app in R3. cbn [List.map] in R3.
    destruct (process_list xs m1 (MWork c :: List.map MWork ys) (Datatypes.S k) 0 [] [(root, kids root, r)] (V :: repeat V k) g1 Hxs) as (g2 & lg2 & R4).
    rewrite Ek in R4.
    set (rest := List.map MWork ys ++ List.map MWork (flat_map kids xs)) in *.
    assert (R5 : reach (State (MWork c :: rest) (Datatypes.S k) 0 ([] ++ mkw PTry false false lg2 :: V :: repeat V k) g2)
                       (State rest (Datatypes.S k) 0 ([] ++ mkw PTry false false lg2 :: mkw (PGot1 c) true false [] :: repeat V k) g2)).
    { apply (reach_step _ _ _ [mkw PTry false false lg2] V (repeat V k) g2 (mkw (PGot1 c) true false []) rest (Datatypes.S k) 0 g2);
        [reflexivity|apply reach_refl]. }
    destruct (gsizes_kids _ _ Hxs) as (mk & Hmk & _).
    assert (Hrest : gsizes (ys ++ flat_map kids xs) (my + mk)) by (apply gsizes_app; eauto).
    assert (Erest : rest = List.map MWork (ys ++ flat_map kids xs)) by (unfold rest; rewrite map_app; auto).
    destruct (process_all _ _ (Datatypes.S k) 0 [] lg2 (mkw (PGot1 c) true false [] :: repeat V k) g2 Hrest) as (g3 & lg3 & R6).
    assert (R7 : reach (State [] (Datatypes.S k) 0 ([] ++ mkw PTry false false lg3 :: mkw (PGot1 c) true false [] :: repeat V k) g3)
       (State (repeat MQuit n) n 0 ([] ++ mkw PTry true false lg3 :: mkw (PGot1 c) true false [] :: repeat V k) g3)).
    { assert (E : Nat.eqb (Datatypes.S (Datatypes.S k)) n = true) by (apply Nat.eqb_eq; lia).
      do 4 (eapply reach_step; [st; cbn [set_flag]; rewrite ?E; reflexivity|]). rewrite <- En. apply (send_quits n []). }
    inversion Gc as [? ec Hrc Hec]; subst mc x. destruct (Hrc g3) as (g4 & rc & Erc).
    assert (R8 : reach (State (repeat MQuit n) n 0 ([] ++ mkw PTry true false lg3 :: mkw (PGot1 c) true false [] :: repeat V k) g3)
       (State (repeat MQuit n ++ List.map MWork (kids c)) (n - 1) 0
              (mkw PTry true false lg3 :: mkw PTry false false [(c, kids c, rc)] :: repeat V k) g4)).
    { change ([] ++ mkw PTry true false lg3 :: ?l) with ([mkw PTry true false lg3] ++ l).
      change (mkw PTry true false lg3 :: mkw PTry false false [(c, kids c, rc)] :: repeat V k)
        with ([mkw PTry true false lg3] ++ mkw PTry false false [(c, kids c, rc)] :: repeat V k).
      do 2 (eapply reach_step; [st; reflexivity|]). eapply reach_step; [st; rewrite Erc; reflexivity|]. apply send_all. }
    set (ws := mkw PTry true false lg3 :: mkw PTry false false [(c, kids c, rc)] :: repeat V k) in *.
    assert (Lws : List.length ws = n) by (unfold ws; cbn; rewrite repeat_length; lia).
    destruct (pop_quits ws (List.map MWork (kids c)) (n - 1) 0 [] g4) as (nw' & nq' & ws' & R9 & F9 & L9).
    { unfold ws. repeat constructor. clear. induction k; cbn; constructor; auto. }
    rewrite Lws in R9. cbn [app] in R9.
    assert (RR : reach (start n root g) (State (List.map MWork (kids c)) nw' nq' ws' g4)).
    { rewrite <- Erest in R6. cbn [app] in *.
      exact (reach_trans _ _ _ R1 (reach_trans _ _ _ R2 (reach_trans _ _ _ R3 (reach_trans _ _ _ R4 (reach_trans _ _ _ R5
        (reach_trans _ _ _ R6 (reach_trans _ _ _ R7 (reach_trans _ _ _ R8 R9)))))))). }
    pose proof (reach_flags _ _ RR (flags_start n root g)) as Fl.
    assert (nw' = n /\ nq' = n) as [-> ->].
    { destruct Fl as (Hl & Hw & Hq & Hf). cbn [mkp ps_workers ps_nwait ps_nquit] in *.
      assert (X : nwaiting ws' = List.length ws' /\ nquitting ws' = List.length ws').
      { clear - F9 Hf. induction ws' as [|w l IH]; auto. inversion F9; inversion Hf; subst. destruct IH; auto.
        rewrite nwaiting_cons, nquitting_cons. unfold pc_flags in H5. cbn [List.length].
        rewrite H1 in H5; destruct H5 as [-> ->]; cbn; lia. }
      lia. }
    destruct (finish ws' (List.map MWork (kids c)) [] g4) as (s & Rs & Es & Qs); [auto|eapply Forall_impl; eauto; cbn; auto|].
    exists s. split; [eapply reach_trans; eauto|]. split; auto. rewrite Qs. apply queued_works.
  Qed.
End Live.
