(** Facts about reading JSON texts: tokens and trees. *)
From Verif Require Export SpecJtext BaseFacts.
From Coq Require Export Lia.

(** Induction over trees *)
Section TreeInd.
  Variable P : jtree -> Prop.
  Hypothesis Hnull : P RNull.
  Hypothesis Hbool : forall b, P (RBool b).
  Hypothesis Hnum : forall t, P (RNum t).
  Hypothesis Hstr : forall b, P (RStr b).
  Hypothesis Harr : forall l, Forall P l -> P (RArr l).
  Hypothesis Hobj : forall l, Forall (fun x => P (snd x)) l -> P (RObj l).
  Fixpoint jtree_ind' (r : jtree) : P r :=
    match r with
    | RNull => Hnull | RBool b => Hbool b | RNum t => Hnum t | RStr b => Hstr b
    | RArr l => Harr l ((fix go (l : list jtree) : Forall P l :=
                           match l with [] => Forall_nil _ | x :: l' => Forall_cons _ (jtree_ind' x) (go l') end) l)
    | RObj l => Hobj l ((fix go (l : list (string * jtree)) : Forall (fun x => P (snd x)) l :=
                           match l with [] => Forall_nil _ | (k, x) :: l' => Forall_cons (k, x) (jtree_ind' x) (go l') end) l)
    end.
End TreeInd.

(** The tokens of a tree *)
Definition commas (l : list (list jtoken)) : list jtoken :=
  match l with [] => [] | x :: r => x ++ flat_map (fun y => KComma :: y) r end.
Fixpoint toks (r : jtree) : list jtoken :=
  match r with
  | RNull => [KNull]
  | RBool true => [KTrue]
  | RBool false => [KFalse]
  | RNum t => [KNum t]
  | RStr b => [KStr b]
  | RArr l => KOpenArr :: commas (List.map toks l) ++ [KCloseArr]
  | RObj l => KOpenObj :: commas (List.map (fun x => match x with (k, v) => KStr k :: KColon :: toks v end) l) ++ [KCloseObj]
  end.
Definition mtoks (x : string * jtree) : list jtoken := KStr (fst x) :: KColon :: toks (snd x).
Lemma toks_obj l : toks (RObj l) = KOpenObj :: commas (List.map mtoks l) ++ [KCloseObj].
Proof. cbn [toks]. do 2 f_equal. f_equal. apply map_ext. intros []; reflexivity. Qed.

Definition trail (l : list (list jtoken)) : list jtoken := flat_map (fun x => x ++ [KComma]) l.
Lemma commas_snoc l x : commas (l ++ [x]) = trail l ++ x.
Proof.
  destruct l as [|y l]; [cbn; rewrite app_nil_r; auto|]. cbn [app commas trail flat_map].
  revert y. induction l as [|z l IH]; intros y; cbn.
  - rewrite <- !app_assoc. cbn. rewrite app_nil_r. auto.
  - rewrite <- !app_assoc. cbn. do 2 f_equal. specialize (IH z). rewrite <- !app_assoc in IH. exact IH.
Qed.
Lemma trail_snoc l x : trail (l ++ [x]) = commas (l ++ [x]) ++ [KComma].
Proof. rewrite commas_snoc. unfold trail. rewrite flat_map_app. cbn. rewrite app_nil_r, app_assoc. auto. Qed.

(** Trees are read from their tokens *)
Definition then_run (o : option pstate) (ts : list jtoken) : option jtree :=
  match o with Some ps => p_run ps ts | None => None end.
Lemma run_first st v rest : p_run (PFirst st) (toks v ++ rest) = p_run (PValue st) (toks v ++ rest).
Proof. destruct v as [|[]|t|b|l|l]; try (destruct st as [|[] ?]; reflexivity); cbn; destruct st as [|[] ?]; reflexivity. Qed.
Lemma run_value : forall r st rest, p_run (PValue st) (toks r ++ rest) = then_run (p_complete r st) rest.
Proof.
  induction r as [|[]|t|b|l F|l F] using jtree_ind'; intros st rest; try reflexivity.
  - cbn [toks app]. rewrite <- app_assoc. cbn [p_run p_step p_value app].
    assert (R : forall m acc, Forall (fun r => forall st rest, p_run (PValue st) (toks r ++ rest) = then_run (p_complete r st) rest) m ->
      p_run (PAfter (FArr acc :: st)) (flat_map (fun y => KComma :: y) (List.map toks m) ++ KCloseArr :: rest)
      = then_run (p_complete (RArr (acc ++ m)) st) rest).
    { induction m as [|v m IH]; intros acc Fm.
      - cbn. rewrite app_nil_r. reflexivity.
      - inversion Fm as [|? ? Hv Fm']; subst. cbn [List.map flat_map app]. cbn [p_run p_step]. rewrite <- app_assoc.
        rewrite Hv. cbn [p_complete then_run]. rewrite IH by auto. rewrite <- app_assoc. reflexivity. }
    destruct l as [|v m]; [reflexivity|]. cbn [List.map commas]. rewrite <- app_assoc. rewrite run_first.
    inversion F as [|? ? Hv Fm]; subst. rewrite Hv. cbn [p_complete then_run app]. rewrite R by auto. reflexivity.
  - rewrite toks_obj. cbn [app]. rewrite <- app_assoc. cbn [p_run p_step p_value app].
    assert (R : forall m acc, Forall (fun x => forall st rest, p_run (PValue st) (toks (snd x) ++ rest) = then_run (p_complete (snd x) st) rest) m ->
      p_run (PAfter (FObj acc :: st)) (flat_map (fun y => KComma :: y) (List.map mtoks m) ++ KCloseObj :: rest)
      = then_run (p_complete (RObj (acc ++ m)) st) rest).
    { induction m as [|[k v] m IH]; intros acc Fm.
      - cbn. rewrite app_nil_r. reflexivity.
      - inversion Fm as [|? ? Hv Fm']; subst. cbn [List.map flat_map app mtoks fst snd] in *. cbn [p_run p_step app]. rewrite <- app_assoc.
        rewrite Hv. cbn [p_complete then_run]. rewrite IH by auto. rewrite <- app_assoc. reflexivity. }
    destruct l as [|[k v] m]; [reflexivity|]. cbn [List.map commas mtoks fst snd app]. cbn [p_run p_step]. rewrite <- app_assoc.
    inversion F as [|? ? Hv Fm]; subst. cbn [snd] in Hv. rewrite Hv. cbn [p_complete then_run app]. rewrite R by auto. reflexivity.
Qed.
Lemma run_complete r : p_run (PValue []) (toks r) = Some r.
Proof. rewrite <- (app_nil_r (toks r)). rewrite run_value. reflexivity. Qed.

(** And from nothing else *)
Definition open_frame (f : frame) : list jtoken :=
  match f with
  | FArr l => KOpenArr :: trail (List.map toks l)
  | FObj l => KOpenObj :: trail (List.map mtoks l)
  | FKey l k => KOpenObj :: trail (List.map mtoks l) ++ [KStr k; KColon]
  end.
Fixpoint opens (st : list frame) : list jtoken := match st with [] => [] | f :: s => opens s ++ open_frame f end.
Definition awaits (f : frame) : Prop := match f with FObj _ => False | _ => True end.
Definition consumed (ps : pstate) (ts : list jtoken) : Prop :=
  match ps with
  | PValue st => Forall awaits st /\ ts = opens st
  | PFirst st => exists s, st = FArr [] :: s /\ Forall awaits s /\ ts = opens st
  | PAfter st =>
      exists s, Forall awaits s /\
        ((exists l v, st = FArr (l ++ [v]) :: s /\ ts = opens s ++ KOpenArr :: commas (List.map toks (l ++ [v]))) \/
         (exists l v, st = FObj (l ++ [v]) :: s /\ ts = opens s ++ KOpenObj :: commas (List.map mtoks (l ++ [v]))))
  | PKey st => exists l s, st = FObj l :: s /\ Forall awaits s /\ ts = opens st
  | PFirstKey st => exists s, st = FObj [] :: s /\ Forall awaits s /\ ts = opens st
  | PColon st => exists l k s, st = FKey l k :: s /\ Forall awaits s /\ ts ++ [KColon] = opens st
  | PEnd r => ts = toks r
  end.
Lemma complete_consumed v st ps : Forall awaits st -> p_complete v st = Some ps -> consumed ps (opens st ++ toks v).
Proof.
  intros F H. destruct st as [|[l|l|l k] s]; cbn in H; inversion H; subst; cbn.
  - reflexivity.
  - inversion F; subst. exists s. split; auto. left. exists l, v. split; auto.
    rewrite List.map_app. cbn [List.map]. rewrite commas_snoc. rewrite <- app_assoc. reflexivity.
  - inversion F; subst. exists s. split; auto. right. exists l, (k, v). split; auto.
    rewrite List.map_app. cbn [List.map]. rewrite commas_snoc. rewrite <- app_assoc. cbn. rewrite <- app_assoc. reflexivity.
Qed.
Lemma value_consumed st t ps : Forall awaits st -> p_value st t = Some ps -> consumed ps (opens st ++ [t]).
Proof.
  intros F H. destruct t; cbn in H; try discriminate; try (apply (complete_consumed _ _ _ F H)).
  - injection H as <-. exists st. auto.
  - injection H as <-. exists st. auto.
Qed.
Lemma step_consumed ps t ps' ts : consumed ps ts -> p_step ps t = Some ps' -> consumed ps' (ts ++ [t]).
Proof.
  intros C H. destruct ps as [st|st|st|st|st|st|r]; cbn [consumed] in C.
  - destruct C as [F ->]. cbn in H. apply value_consumed; auto.
  - destruct C as (s & -> & F & ->).
    assert (K : p_value (FArr [] :: s) t = Some ps' \/ t = KCloseArr /\ p_complete (RArr []) s = Some ps').
    { destruct t; cbn in H |- *; auto. }
    destruct K as [K|[-> K]]; [apply value_consumed; auto; constructor; cbn; auto|].
    apply complete_consumed in K; auto. cbn in K |- *. rewrite <- app_assoc. exact K.
  - destruct C as (s & F & [(l & v & -> & ->)|(l & v & -> & ->)]).
    + destruct t; cbn in H; try discriminate.
      * apply complete_consumed in H; auto. cbn [toks] in H. rewrite <- app_assoc. exact H.
      * injection H as <-. cbn. split; [constructor; cbn; auto|]. rewrite !List.map_app. cbn [List.map].
        rewrite trail_snoc. rewrite <- app_assoc. reflexivity.
    + destruct t; cbn in H; try discriminate.
      * apply complete_consumed in H; auto. rewrite toks_obj in H. rewrite <- app_assoc. exact H.
      * injection H as <-. cbn. exists (l ++ [v]), s. split; auto. split; auto. rewrite !List.map_app. cbn [List.map].
        rewrite trail_snoc. rewrite <- app_assoc. reflexivity.
  - destruct C as (l & s & -> & F & ->). destruct t; cbn in H; try discriminate. injection H as <-.
    cbn. exists l, body, s. split; auto. split; auto. repeat (rewrite <- app_assoc; cbn). reflexivity.
  - destruct C as (s & -> & F & ->). destruct t; cbn in H; try discriminate.
    + apply complete_consumed in H; auto. cbn in H |- *. rewrite <- app_assoc. exact H.
    + injection H as <-. cbn. exists [], body, s. split; auto. split; auto. rewrite <- !app_assoc. reflexivity.
  - destruct C as (l & k & s & -> & F & E). destruct t; cbn in H; try discriminate. injection H as <-.
    cbn [consumed]. split; [constructor; cbn; auto|]. exact E.
  - discriminate.
Qed.
Lemma run_consumed : forall ts ps ts0 r, consumed ps ts0 -> p_run ps ts = Some r -> ts0 ++ ts = toks r.
Proof.
  induction ts as [|t ts IH]; intros ps ts0 r C H; cbn in H.
  - destruct ps; try discriminate. injection H as <-. rewrite app_nil_r. exact C.
  - destruct (p_step ps t) as [ps'|] eqn:E; [|discriminate]. apply (step_consumed _ _ _ _ C) in E.
    apply (IH _ _ _ E) in H. rewrite <- app_assoc in H. exact H.
Qed.
Lemma run_exact ts r : p_run (PValue []) ts = Some r <-> ts = toks r.
Proof.
  split; [|intros ->; apply run_complete]. intros H. apply (run_consumed ts (PValue []) [] r); auto. cbn. auto.
Qed.
