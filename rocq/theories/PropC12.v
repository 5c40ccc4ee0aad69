(** C12: field collection terminates exactly when no selection set leads back into itself. *)
From Verif Require Import DefFacts SelWorlds.

(** [leads_below b a]: the selection set [a] leads to the nested selection set [b] *)
Definition leads_below (s : schema) (frags : amap string fragdef) (b a : string * list selection) : Prop :=
  leads s frags a b.
(** [spread_below b a]: the fragment named [a] spreads the fragment named [b] *)
Definition spread_below (frags : amap string fragdef) (b a : string) : Prop := frag_spreads frags a b.

Lemma root_answers cx d P p l : order_ok (cx_order cx) -> consistent (cx_schema cx) ->
  code_root d = Some (P, p, l) -> composite (cx_schema cx) P ->
  ((exists fuel, compile_definition fuel cx d <> None) -> Acc (leads_below (cx_schema cx) (cx_frags cx)) (P, l)) /\
  (Acc (leads_below (cx_schema cx) (cx_frags cx)) (P, l) -> exists n, forall fuel, n <= fuel -> compile_definition fuel cx d <> None).
Proof.
  intros O Co R C. destruct (new_ctrav (cx_schema cx) P p) as [par|e] eqn:En.
  2: { apply new_ctrav_err in En. destruct En as [N _]. contradiction. }
  destruct (sh_new _ (cx_order cx) _ _ _ En) as (_ & Sh & _). split.
  - intros (fuel & A). apply (compile_some cx fuel d par [0] P p l R En eq_refl) in A.
    destruct (collect fuel cx [0] l par RootLocal) as [r|] eqn:E; [|congruence].
    exact (answer_acc cx O Co fuel _ _ _ _ _ _ _ Sh E).
  - intros A. destruct (acc_settles cx O Co (P, l) A) as (n & H). exists n. intros fuel Hf.
    apply (compile_some cx fuel d par [0] P p l R En eq_refl). eapply H; eauto.
Qed.
Lemma no_root_answers fuel cx d :
  match code_root d with None => True | Some (c, _, _) => ~ composite (cx_schema cx) c end ->
  compile_definition fuel cx d <> None.
Proof.
  destruct d as [[p l|k p n vars ds sels]|f]; cbn [code_root compile_definition build_from_operation]; intros H; [discriminate| |].
  - destruct (new_ctrav (cx_schema cx) (op_type_name k) p) as [par|e] eqn:En; [|discriminate].
    exfalso. apply H. eapply new_ctrav_inv; eauto.
  - destruct (new_ctrav (cx_schema cx) (fr_cond f) (fr_pos f)) as [par|e] eqn:En; [|discriminate].
    exfalso. apply H. eapply new_ctrav_inv; eauto.
Qed.

(** Exact characterisation: some recursion depth suffices iff the chain of nested selection sets,
    through fields, inline fragments and spreads, is well founded.  ([None] = deeper than the fuel.) *)
Theorem C12_exact : forall cx d P l,
  order_ok (cx_order cx) -> consistent (cx_schema cx) ->
  doc_root d = Some (P, l) -> is_subscription d = false -> composite (cx_schema cx) P ->
  ((exists fuel, compile_definition fuel cx d <> None) <-> Acc (leads_below (cx_schema cx) (cx_frags cx)) (P, l)).
Proof.
  intros cx d P l O Co Dr Su C. pose proof (code_root_doc d Su) as E. rewrite Dr in E.
  destruct (code_root d) as [[[Q p] m]|] eqn:R; [|discriminate]. cbn in E. inversion E; subst.
  destruct (root_answers _ _ _ _ _ O Co R C) as [A B]. split; [auto|]. intros H.
  destruct (B H) as (n & Hn). exists n. apply Hn. auto.
Qed.
Print Assumptions C12_exact.

(** Acyclic spreads: every document gets an answer, and the same depth bound serves ever after *)
Theorem C12_acyclic : forall cx d,
  order_ok (cx_order cx) -> consistent (cx_schema cx) ->
  (forall P l m, doc_root d = Some (P, l) -> spreads l m -> Acc (spread_below (cx_frags cx)) m) ->
  exists n, forall fuel, n <= fuel -> compile_definition fuel cx d <> None.
Proof.
  intros cx d O Co H. destruct (code_root d) as [[[P p] l]|] eqn:R.
  - destruct (get_type (cx_schema cx) P) as [t|] eqn:Et.
    + assert (D : composite (cx_schema cx) P \/ ~ composite (cx_schema cx) P).
      { destruct (compositeb (cx_schema cx) P) eqn:Eb; [left; apply compositeb_ok; auto|right].
        intros C. apply compositeb_ok in C. congruence. }
      destruct D as [C|C].
      * destruct (code_root_sels _ _ _ _ R) as (Q & Dr). apply (root_answers _ _ _ _ _ O Co R C).
        apply acyclic_acc. intros m Sm. eapply H; eauto.
      * exists 0. intros fuel _. apply no_root_answers. rewrite R. auto.
    + exists 0. intros fuel _. apply no_root_answers. rewrite R. intros (t & E & _). congruence.
  - exists 0. intros fuel _. apply no_root_answers. rewrite R. auto.
Qed.
Print Assumptions C12_acyclic.

(** A selection set that leads back into itself, however indirectly: no depth suffices *)
Theorem C12_cycle : forall cx d P l (c : nat -> string * list selection),
  order_ok (cx_order cx) -> consistent (cx_schema cx) ->
  doc_root d = Some (P, l) -> is_subscription d = false -> composite (cx_schema cx) P ->
  c 0 = (P, l) -> (forall n, leads (cx_schema cx) (cx_frags cx) (c n) (c (S n))) ->
  forall fuel, compile_definition fuel cx d = None.
Proof.
  intros cx d P l c O Co Dr Su C E0 Hs fuel.
  destruct (compile_definition fuel cx d) eqn:E; auto. exfalso.
  assert (A : Acc (leads_below (cx_schema cx) (cx_frags cx)) (P, l)).
  { apply (C12_exact cx d P l); auto. exists fuel. congruence. }
  rewrite <- E0 in A. clear - A Hs. remember (c 0) as x eqn:Ex. assert (exists n, x = c n) by eauto. clear Ex.
  induction A as [x _ IH]. destruct H as (n & ->). eapply IH; [apply Hs|]. eauto.
Qed.
Print Assumptions C12_cycle.

(** The code has no cycle check: query { me { ...F } } with fragment F on User { friend { ...F } } *)
Definition C12_frags : list fragdef := [frag "F" "User" [leaf 5 "name"; node 6 "friend" [spread 7 "F"]]].
Theorem C12_self_spread : forall fuel,
  compile_definition fuel (zoo_cx false C12_frags) (query [node 2 "me" [spread 3 "F"]]) = None.
Proof.
  set (loop := [leaf 5 "name"; node 6 "friend" [spread 7 "F"]]).
  assert (G : aget "F" (cx_frags (zoo_cx false C12_frags)) = Some (frag "F" "User" loop)) by reflexivity.
  assert (F1 : exists f, field_of zoo "Query" "me" f /\ ft_name (sf_type f) = "User").
  { eexists. split; [eexists; split; [vm_compute; reflexivity|vm_compute; reflexivity]|reflexivity]. }
  assert (F2 : exists f, field_of zoo "User" "friend" f /\ ft_name (sf_type f) = "User").
  { eexists. split; [eexists; split; [vm_compute; reflexivity|vm_compute; reflexivity]|reflexivity]. }
  assert (L1 : leads zoo (cx_frags (zoo_cx false C12_frags)) ("User", loop) ("User", [spread 7 "F"])).
  { destruct F2 as (f & F & E).
    assert (X : leads zoo (cx_frags (zoo_cx false C12_frags)) ("User", loop) (ft_name (sf_type f), [spread 7 "F"])).
    { eapply (le_field zoo _ "User" loop); [right; left; reflexivity|exact F| |discriminate].
      rewrite E. apply compositeb_ok. reflexivity. }
    rewrite E in X. exact X. }
  assert (L2 : forall k, leads zoo (cx_frags (zoo_cx false C12_frags)) ("User", [spread k "F"]) ("User", loop)).
  { intros k. apply (le_spread zoo _ "User" [spread k "F"] (at_pos k 3) "F" [] (frag "F" "User" loop)).
    - left. reflexivity.
    - exact G.
    - apply compositeb_ok. vm_compute. reflexivity. }
  assert (L0 : leads zoo (cx_frags (zoo_cx false C12_frags)) ("Query", [node 2 "me" [spread 3 "F"]]) ("User", [spread 3 "F"])).
  { destruct F1 as (f & F & E).
    assert (X : leads zoo (cx_frags (zoo_cx false C12_frags)) ("Query", [node 2 "me" [spread 3 "F"]]) (ft_name (sf_type f), [spread 3 "F"])).
    { eapply (le_field zoo _ "Query" [node 2 "me" [spread 3 "F"]]); [left; reflexivity|exact F| |discriminate].
      rewrite E. apply compositeb_ok. reflexivity. }
    rewrite E in X. exact X. }
  apply (C12_cycle (zoo_cx false C12_frags) _ "Query" [node 2 "me" [spread 3 "F"]]
    (fun n => match n with
              | 0 => ("Query", [node 2 "me" [spread 3 "F"]])
              | 1 => ("User", [spread 3 "F"])
              | S (S n) => if Nat.even n then ("User", loop) else ("User", [spread 7 "F"])
              end)).
  - apply plain_ok.
  - apply zoo_consistent.
  - reflexivity.
  - reflexivity.
  - apply compositeb_ok. reflexivity.
  - reflexivity.
  - intros [|[|n]]; [exact L0|exact (L2 3)|]. rewrite Nat.even_succ, <- Nat.negb_even.
    destruct (Nat.even n); cbn [negb]; [exact L1|exact (L2 7)].
Qed.
Print Assumptions C12_self_spread.

(** Non-vacuity of the acyclic case: two levels of spreads *)
Example C12_nonvacuous :
  let fs := [frag "F" "User" [leaf 5 "name"; node 6 "friend" [spread 7 "G"]]; frag "G" "User" [leaf 8 "name"]] in
  (forall m, Acc (spread_below (cx_frags (zoo_cx false fs))) m) /\
  compile_definition 10 (zoo_cx false fs) (query [node 2 "me" [spread 3 "F"]]) <> None.
Proof.
  intros fs. split; [|vm_compute; discriminate].
  assert (G : forall m fd, aget m (cx_frags (zoo_cx false fs)) = Some fd ->
    m = "F" /\ fr_sels fd = [leaf 5 "name"; node 6 "friend" [spread 7 "G"]] \/ m = "G" /\ fr_sels fd = [leaf 8 "name"]).
  { intros m fd E. apply aget_In in E. destruct E as [E|[E|[]]]; inversion E; subst; auto. }
  assert (Sg : forall b, ~ spreads [leaf 8 "name"] b).
  { intros b Sp. inversion Sp as [? ? ? ? I|? ? ? ? ? ? ? ? I Sp'|? ? ? ? ? ? I]; subst; destruct I as [I|[]]; inversion I; subst.
    inversion Sp' as [? ? ? ? J|? ? ? ? ? ? ? ? J|? ? ? ? ? ? J]; destruct J. }
  assert (X : forall m, m <> "F" -> Acc (spread_below (cx_frags (zoo_cx false fs))) m).
  { intros m N. constructor. intros b (fd & E & Sp). destruct (G _ _ E) as [[-> _]|[-> Es]]; [congruence|].
    rewrite Es in Sp. destruct (Sg _ Sp). }
  intros m. destruct (string_dec m "F") as [->|N]; auto. constructor. intros b (fd & E & Sp). apply X. intros ->.
  destruct (G _ _ E) as [[_ Es]|[? _]]; [|discriminate]. rewrite Es in Sp.
  inversion Sp as [? ? ? ? I|? ? ? ? ? ? ? ? I Sp'|? ? ? ? ? ? I]; subst; destruct I as [I|[I|[]]]; inversion I; subst;
  inversion Sp' as [? ? ? ? J|? ? ? ? ? ? ? ? J|? ? ? ? ? ? J]; subst; try (destruct J; fail); destruct J as [J|[]]; inversion J.
Qed.
