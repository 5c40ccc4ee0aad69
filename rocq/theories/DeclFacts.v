(** Declarations of a compiled document, as the alternatives of the types they stand for. *)
From Verif Require Export DocDesc SpecDecl.

Lemma NoDup_app_disjoint {A} (a b : list A) x : NoDup (a ++ b) -> In x a -> In x b -> False.
Proof.
  induction a as [|y a IH]; intros N I J; [destruct I|]. cbn in N. inversion N as [|? ? Ny N']; subst. destruct I as [->|I]; auto.
  apply Ny. apply in_or_app. auto.
Qed.
Lemma NoDup_app_right {A} (a b : list A) : NoDup (a ++ b) -> NoDup b.
Proof. induction a; cbn; auto. inversion 1; auto. Qed.

Lemma core_mod m e : core_of (mod_expr m e) = core_of e.
Proof. destruct m; reflexivity. Qed.
Lemma core_ptd l m e : core_of (ptd_expr l m e) = core_of e.
Proof.
  unfold ptd_expr. rewrite <- (core_mod m e). generalize (mod_expr m e). induction l as [|x l IH]; intros y; cbn [fold_left]; auto.
  rewrite IH, core_mod. reflexivity.
Qed.

(** The alternative of a described type *)
Lemma named_alternative main (groups : list group) n ts ms T :
  (forall g, In g groups -> named main groups g) -> NoDup (flat_map (fun g : group => snd (fst g)) groups) ->
  T <> "$$other" -> In (n, ts, ms) groups -> In T ts ->
  alternative main (List.map (fun g : group => fst (fst g)) groups) T n.
Proof.
  intros Hn Nd Nt I J. split; [apply in_map_iff; exists (n, ts, ms); auto|].
  destruct (Hn _ I) as [[E E1]|[(T' & E & E1)|E]]; cbn [fst snd] in *.
  - left. rewrite E. cbn. rewrite E1. reflexivity.
  - right. left. subst ts. destruct J as [->|[]]. exact E1.
  - assert (D : (exists g, groups = [g] /\ fst (fst g) = main) \/ ~ In (main +++ "_" +++ T) (List.map (fun g : group => fst (fst g)) groups)).
    2:{ destruct D as [(g & Eg & Em)|D]; [left; rewrite Eg; cbn; rewrite Em; reflexivity|right; right; auto]. }
    destruct (in_dec string_dec (main +++ "_" +++ T) (List.map (fun g : group => fst (fst g)) groups)) as [K|K]; [|auto].
    apply in_map_iff in K. destruct K as ([[n' ts'] ms'] & En & K). cbn [fst snd] in En. subst n'.
    destruct (Hn _ K) as [[Eg E1]|[(T' & E' & E1)|E']]; cbn [fst snd] in *.
    + left. exists (main +++ "_" +++ T, ts', ms'). auto.
    + apply sapp_inj_l in E1. injection E1 as E1. subst T' ts'.
      (* [T] is in two groups *)
      exfalso. assert (Ne : (n, ts, ms) <> (main +++ "_" +++ T, [T], ms')).
      { intros X. injection X as X _ _. rewrite E in X. apply sapp_inj_l in X. injection X as X. auto. }
      clear - Nd I J K Ne. induction groups as [|g gs IH]; [destruct I|]. cbn [flat_map] in Nd.
      assert (Y : forall x : group, In T (snd (fst x)) -> In x gs -> In T (snd (fst g)) -> False).
      { intros x Ix Ig Jg. eapply NoDup_app_disjoint; [exact Nd|exact Jg|]. apply in_flat_map. eauto. }
      destruct I as [I|I], K as [K|K]; [apply Ne; rewrite <- I, <- K; reflexivity| | |].
      * subst g. apply (Y (main +++ "_" +++ T, [T], ms')); cbn; auto.
      * subst g. apply (Y (n, ts, ms)); cbn; auto.
      * apply IH; auto. eapply NoDup_app_right; eauto.
    + exfalso. apply sapp_inj_l in E'. injection E' as E'. auto.
Qed.
