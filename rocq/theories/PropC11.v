(** C11: over-narrowing warnings are exact. *)
From Verif Require Import DefFacts SelWorlds.

(** One warning per spread or inline fragment that no possible concrete type satisfies, in document
    order, with its position, its type condition and the types that were possible ([vacuous] in
    SpecDiag).  Spreads of imported fragments whose type condition is not composite are the
    exception. *)
Theorem C11 : forall fuel cx d ws op P l,
  order_ok (cx_order cx) -> consistent (cx_schema cx) ->
  compile_definition fuel cx d = Some (ws, Ok op) ->
  doc_root d = Some (P, l) -> is_subscription d = false ->
  exists out, vacuous (cx_schema cx) (cx_frags cx) P (possible (cx_schema cx) P) l out /\
    Forall2 (fun w x => exists ts, w = WOverFragmentNarrowing (fst (fst x)) ts (snd (fst x)) /\
                                   forall T, In T ts <-> snd x T) (filter is_over ws) out.
Proof.
  intros fuel cx d ws op P l O Co H Dr Su. pose proof (code_root_doc d Su) as E.
  apply compile_result in H; auto. inversion H as [| | | |Q q m ws0 op0 R C X V]; subst.
  rewrite R in E. cbn in E. rewrite Dr in E. inversion E; subst.
  destruct (run_over (cx_schema cx) (cx_frags cx) (cx_deprecations cx)) as (_ & _ & Y).
  destruct (Y _ _ _ _ _ _ X) as [_ Z]. destruct (Z eq_refl eq_refl) as (out & Vc & F).
  exists out. split; auto. clear - F. induction F as [|w [[p c] K] ws1 out M F IH]; constructor; auto.
Qed.
Print Assumptions C11.

(** Every warning is one of the two kinds *)
Theorem C11_kinds : forall w, is_over w = negb (is_depr w).
Proof. intros []; reflexivity. Qed.
Print Assumptions C11_kinds.

(** A vacuous spread contributes nothing: the state collected so far, [par], is left unchanged.
    [keys] are the concrete types possible at this point. *)
Theorem C11_contributes_nothing : forall fuel cx pth c p sub P keys par js r,
  order_ok (cx_order cx) -> consistent (cx_schema cx) ->
  shaped_ct (cx_schema cx) P keys par ->
  (forall T, In T keys -> ~ possible (cx_schema cx) c T) ->
  spread_into (collect fuel cx) cx pth c p sub par js = Some r ->
  exists ws errs, r = inl (par, ws, errs).
Proof.
  intros fuel cx pth c p sub P keys par js r O Co Sh Em H. unfold spread_into in H.
  destruct (clone_for_type_spread cx (0 :: pth) par c p js) as [[subp w0]|e] eqn:Ec.
  2: { inversion H; subst. eauto. }
  destruct (sh_clone _ _ _ _ _ _ _ _ _ _ Ec Sh) as (C & Shs & Kc & Ew).
  assert (E0 : akeys (ct_objs subp) = []).
  { destruct (akeys (ct_objs subp)) as [|T l]; auto. destruct (proj1 (Kc T) (or_introl eq_refl)) as [A B].
    destruct (Em _ B A). }
  destruct (collect fuel cx (1 :: pth) sub subp js) as [[[subp' ws'] errs]|] eqn:E; [|discriminate].
  assert (LK : lists (akeys (ct_objs subp)) (fun T => In T (akeys (ct_objs subp)))) by (intros T; tauto).
  destruct (collect_run cx O Co fuel _ _ _ _ _ _ _ _ _ _ Shs LK E) as [[A B N K R] _].
  destruct errs as [|e errs]; [|inversion H; subst; eauto].
  rewrite E0 in K.
  assert (E1 : ct_objs subp' = []).
  { destruct (ct_objs subp') as [|[T u] l]; [auto|]. destruct (proj1 (K T) (or_introl eq_refl)). }
  unfold extend_ct, ftrav_of_ctrav in H. rewrite E1, extend_ft_cplx in H. cbn [indexed_from List.map] in H.
  assert (Eo : forall A, cx_order cx (2 :: pth) A [] = []).
  { intros T. apply Permutation_nil. apply O. }
  rewrite Eo in H. cbn [fold_err] in H. inversion H; subst. destruct par as [n lk ob]. eauto.
Qed.
Print Assumptions C11_contributes_nothing.

(** The exception is real: the imported fragment's type condition is a scalar, no concrete type
    satisfies it, and nothing is reported *)
Theorem C11_refuted : exists fuel cx d op P l p n dirs fd,
  order_ok (cx_order cx) /\ consistent (cx_schema cx) /\
  compile_definition fuel cx d = Some ([], Ok op) /\ doc_root d = Some (P, l) /\
  In (SSpread p n dirs) l /\ aget n (cx_frags cx) = Some fd /\ (forall T, ~ possible (cx_schema cx) (fr_cond fd) T).
Proof.
  exists 10, (zoo_cx true [frag "F" "String" [leaf 9 "x"]]), (query [spread 3 "F"; leaf 4 "color"]).
  eexists _, _, _, (at_pos 3 3), "F", _, _.
  split; [apply plain_ok|]. split; [apply zoo_consistent|]. split; [vm_compute; reflexivity|].
  split; [reflexivity|]. split; [left; reflexivity|]. split; [reflexivity|].
  intros T (t & E & H). vm_compute in E. inversion E; subst. cbn in H. auto.
Qed.
Print Assumptions C11_refuted.

(** Non-vacuity: pets are Dog or Cat, so "... on Bird" is vacuous; inside it everything is; an
    imported fragment on Bird is reported once *)
Example C11_nonvacuous : exists ws op,
  compile_definition 10 (zoo_cx true [frag "F" "Bird" [leaf 91 "wings"]])
    (query [node 2 "me" [node 3 "pets" [on 4 "Bird" [leaf 5 "wings"; on 6 "Animal" [on 7 "Bird" [leaf 8 "name"]]];
                                        spread 9 "F"; on 10 "Animal" [on 11 "Dog" [leaf 12 "barks"]]]]]) = Some (ws, Ok op) /\
  ws = [WOverFragmentNarrowing (at_pos 4 3) ["Dog"; "Cat"] "Bird"; WOverFragmentNarrowing (at_pos 6 3) [] "Animal";
        WOverFragmentNarrowing (at_pos 7 3) [] "Bird"; WOverFragmentNarrowing (at_pos 9 3) ["Dog"; "Cat"] "Bird"].
Proof. eexists _, _. split; vm_compute; reflexivity. Qed.
