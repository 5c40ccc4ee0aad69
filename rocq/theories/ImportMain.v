(** Import processing visits exactly what is reachable. *)
From Verif Require Export ImportFacts.

Section Walk.
Variables (e : env) (f : fs) (c : cconfig).

Notation readable t o := (f (env_locate e t) = Ok o).

(** An import line of the file or of a reachable one *)
Definition edge (file contents F : string) (n : nat) (l t : string) : Prop :=
  exists C, importer e f c file contents F C /\ imports_at c F C n l t.

Lemma reach_head file contents t o :
  reach e f c file contents t o <->
  exists n l m mo, imports_at c file contents n l m /\ readable m mo /\ importer e f c m mo t o.
Proof.
  split.
  - induction 1 as [n l t o I R|mid mc n l t o H (n0 & l0 & m & mo & I0 & R0 & [[-> ->]|H0]) I R].
    + exists n, l, t, o. split; auto. split; auto. left. auto.
    + exists n0, l0, m, mo. split; auto. split; auto. right. eapply reach_one; eauto.
    + exists n0, l0, m, mo. split; auto. split; auto. right. eapply reach_more; eauto.
  - intros (n & l & m & mo & I & R & [[-> ->]|H]).
    + eapply reach_one; eauto.
    + induction H as [n1 l1 t o I1 R1|mid mc n1 l1 t o H IH I1 R1].
      * eapply reach_more; [eapply reach_one; eauto|eauto|auto].
      * eapply reach_more; eauto.
Qed.

(** The same, for the lines [ls] of the file after [pre] *)
Definition reach_from (file : string) (pre ls : list string) (t o : string) : Prop :=
  exists n l m mo, import_in c file pre ls n l m /\ readable m mo /\ importer e f c m mo t o.
Definition edge_in (file : string) (pre ls : list string) (F : string) (n : nat) (l t : string) : Prop :=
  (F = file /\ import_in c file pre ls n l t) \/
  exists C, reach_from file pre ls F C /\ imports_at c F C n l t.

Lemma reach_from_nil file contents t o :
  reach_from file [] (lines contents) t o <-> reach e f c file contents t o.
Proof.
  rewrite reach_head. unfold reach_from.
  split; intros (n & l & m & mo & I & R); exists n, l, m, mo; split; auto; apply import_in_nil; auto.
Qed.
Lemma edge_in_nil file contents F n l t : edge_in file [] (lines contents) F n l t <-> edge file contents F n l t.
Proof.
  unfold edge_in, edge, importer. split.
  - intros [[-> I]|(C & R & I)].
    + exists contents. split; auto. apply import_in_nil. auto.
    + exists C. split; auto. right. apply reach_from_nil. auto.
  - intros (C & [[-> ->]|R] & I).
    + left. split; auto. apply import_in_nil. auto.
    + right. exists C. split; auto. apply reach_from_nil. auto.
Qed.

Lemma reach_from_skip file pre line ls t o : leading line -> (forall q, ~ names_import line q) ->
  reach_from file pre (line :: ls) t o <-> reach_from file (pre ++ [line]) ls t o.
Proof.
  intros Le N. unfold reach_from. split; intros (n & l & m & mo & I & R); exists n, l, m, mo; split; auto;
    apply (import_in_skip c file pre line ls n l m Le N); auto.
Qed.
Lemma edge_in_skip file pre line ls F n l t : leading line -> (forall q, ~ names_import line q) ->
  edge_in file pre (line :: ls) F n l t <-> edge_in file (pre ++ [line]) ls F n l t.
Proof.
  intros Le N. unfold edge_in. rewrite (import_in_skip c file pre line ls n l t Le N).
  split; (intros [H|(C & R & I)]; [left; auto|right; exists C; split; auto]);
    apply (reach_from_skip file pre line ls F C Le N); auto.
Qed.
Lemma reach_from_stop file pre line ls t o : ~ leading line -> ~ reach_from file pre (line :: ls) t o.
Proof. intros N (n & l & m & mo & I & R). eapply import_in_stop; eauto. Qed.
Lemma edge_in_stop file pre line ls F n l t : ~ leading line -> ~ edge_in file pre (line :: ls) F n l t.
Proof. intros N [[_ I]|(C & R & I)]; [eapply import_in_stop; eauto|eapply reach_from_stop; eauto]. Qed.

Section Cons.
Variables (file line q0 t0 : string) (pre ls : list string).
Hypothesis Q : names_import line q0.
Hypothesis Rs : resolves c (path_pop file) q0 t0.
Hypothesis Le : leading line.

Lemma reach_from_ok other t o : readable t0 other ->
  reach_from file pre (line :: ls) t o <->
  importer e f c t0 other t o \/ reach_from file (pre ++ [line]) ls t o.
Proof.
  intros R0. unfold reach_from. split.
  - intros (n & l & m & mo & I & R & Im). apply (import_in_cons c file pre line ls n l m q0 t0 Q Rs Le) in I.
    destruct I as [(-> & -> & ->)|I]; [left; congruence|right]. exists n, l, m, mo. auto.
  - intros [Im|(n & l & m & mo & I & R & Im)].
    + exists (List.length pre), line, t0, other. split; auto.
      apply (import_in_cons c file pre line ls _ _ _ q0 t0 Q Rs Le). auto.
    + exists n, l, m, mo. split; auto. apply (import_in_cons c file pre line ls _ _ _ q0 t0 Q Rs Le). auto.
Qed.
Lemma edge_in_ok other F n l t : readable t0 other ->
  edge_in file pre (line :: ls) F n l t <->
  (F = file /\ n = List.length pre /\ l = line /\ t = t0) \/ edge t0 other F n l t \/
  edge_in file (pre ++ [line]) ls F n l t.
Proof.
  intros R0. unfold edge_in, edge. rewrite (import_in_cons c file pre line ls n l t q0 t0 Q Rs Le). split.
  - intros [(-> & [H|H])|(C & R & I)]; auto. apply (reach_from_ok other _ _ R0) in R. destruct R; eauto 7.
  - intros [(-> & -> & -> & ->)|[(C & R & I)|[[-> H]|(C & R & I)]]]; [left; auto 8| |left; auto|].
    + right. exists C. split; auto. apply (reach_from_ok other _ _ R0). auto.
    + right. exists C. split; auto. apply (reach_from_ok other _ _ R0). auto.
Qed.
Lemma reach_from_err err t o : f (env_locate e t0) = Err err ->
  reach_from file pre (line :: ls) t o <-> reach_from file (pre ++ [line]) ls t o.
Proof.
  intros R0. unfold reach_from. split.
  - intros (n & l & m & mo & I & R & Im). apply (import_in_cons c file pre line ls n l m q0 t0 Q Rs Le) in I.
    destruct I as [(-> & -> & ->)|I]; [congruence|]. exists n, l, m, mo. auto.
  - intros (n & l & m & mo & I & R & Im).
    exists n, l, m, mo. split; auto. apply (import_in_cons c file pre line ls _ _ _ q0 t0 Q Rs Le). auto.
Qed.
Lemma edge_in_err err F n l t : f (env_locate e t0) = Err err ->
  edge_in file pre (line :: ls) F n l t <->
  (F = file /\ n = List.length pre /\ l = line /\ t = t0) \/ edge_in file (pre ++ [line]) ls F n l t.
Proof.
  intros R0. unfold edge_in. rewrite (import_in_cons c file pre line ls n l t q0 t0 Q Rs Le). split.
  - intros [(-> & [H|H])|(C & R & I)]; auto. apply (reach_from_err err _ _ R0) in R. eauto 7.
  - intros [(-> & -> & -> & ->)|[[-> H]|(C & R & I)]]; [left; auto 8|left; auto|].
    right. exists C. split; auto. apply (reach_from_err err _ _ R0). auto.
Qed.
End Cons.

(** ** Successful processing *)
Definition line_loc (n : nat) (l : string) : location := loc_line_column (n + 1) l (String.length import_mark).

(** What processing [edges] with reachable files [files] adds to the state *)
Definition adds (edges : string -> nat -> string -> string -> Prop) (files : string -> string -> Prop)
           (im0 : imports) (ms0 : list message) (im : imports) (ms : list message) : Prop :=
  (forall k v, In (k, v) im -> In (k, v) im0 \/
     exists F n l t o, edges F n l t /\ readable t o /\ path_eqb t (raw k) = true /\ v = (o, line_loc n l)) /\
  (forall t o, files t o -> aget (P t) im <> None) /\
  (forall t, aget (P t) im0 <> None -> aget (P t) im <> None) /\
  (forall m, In m ms <-> In m ms0 \/
     exists F n l t err, edges F n l t /\ f (env_locate e t) = Err err /\ m = missing_message F n l t err).

Lemma adds_ext edges edges' files files' im0 ms0 im ms :
  (forall F n l t, edges F n l t <-> edges' F n l t) -> (forall t o, files t o <-> files' t o) ->
  adds edges files im0 ms0 im ms -> adds edges' files' im0 ms0 im ms.
Proof.
  intros E Fi (A & B & C & D). split; [|split; [|split]].
  - intros k v I. destruct (A k v I) as [H|(F & n & l & t & o & Ed & H)]; auto.
    right. exists F, n, l, t, o. split; auto. apply E. auto.
  - intros t o H. apply (B t o). apply Fi. auto.
  - exact C.
  - intros m. rewrite D. split; (intros [H|(F & n & l & t & err & Ed & H)]; [auto|]);
      right; exists F, n, l, t, err; split; auto; apply E; auto.
Qed.

Definition rec_ok (rec : walker) : Prop := forall file contents im0 ms0 im ms,
  rec file contents im0 ms0 = Done (im, ms) ->
  adds (edge file contents) (reach e f c file contents) im0 ms0 im ms /\
  forall F C, importer e f c file contents F C -> ~ open_in (lines C).

Lemma loop_ok rec file : rec_ok rec -> forall ls pre im0 ms0 im ms,
  imp_loop rec e f c file (List.length pre) ls im0 ms0 = Done (im, ms) ->
  adds (edge_in file pre ls) (reach_from file pre ls) im0 ms0 im ms /\
  ~ open_in ls /\ forall F C, reach_from file pre ls F C -> ~ open_in (lines C).
Proof.
  intros Rok. induction ls as [|line ls IH]; intros pre im0 ms0 im ms H.
  - cbn in H. inversion H; subst. split; [|split].
    + split; [|split; [|split]]; auto.
      * intros t o (n & l & m & mo & (q & [|k] & _ & E & _) & _); cbn in E; discriminate.
      * intros m. split; auto. intros [I|(F & n & l & t & err & [[_ Ed]|(C & (n' & l' & m' & mo & Ed & _) & _)] & _)]; auto;
          destruct Ed as (q & [|k] & _ & E & _); cbn in E; discriminate.
    + intros ([|k] & l & E & _); cbn in E; discriminate.
    + intros t o (n & l & m & mo & (q & [|k] & _ & E & _) & _); cbn in E; discriminate.
  - assert (Len : S (List.length pre) = List.length (pre ++ [line])) by (rewrite app_length; cbn; lia).
    cbn [imp_loop] in H. destruct (line_kinds c (path_pop file) line) as
      [Sk Le Nq Nu|E1 E2 E3 Nl|E1 E2 E3 Le U|q t0 E1 E2 E3 Le Q Rs Nu].
    + assert (H' : imp_loop rec e f c file (S (List.length pre)) ls im0 ms0 = Done (im, ms)).
      { destruct Sk as [E|(E1 & E2 & E3)]; [rewrite E in H; auto|rewrite E1, E2, E3 in H; auto]. }
      rewrite Len in H'. destruct (IH _ _ _ _ _ H') as (A & No & Nr). split; [|split].
      * eapply adds_ext; [| |exact A].
        -- intros. symmetry. apply edge_in_skip; auto.
        -- intros. symmetry. apply reach_from_skip; auto.
      * intros O. apply No. eapply open_in_cons; eauto.
      * intros F C R. apply (Nr F C). apply (reach_from_skip file pre line ls F C Le Nq). auto.
    + rewrite E1, E2, E3 in H. inversion H; subst. split; [|split].
      * split; [|split; [|split]]; auto.
        -- intros t o R. exfalso. eapply reach_from_stop; eauto.
        -- intros m. split; auto. intros [I|(F & n & l & t & err & Ed & _)]; auto.
           exfalso. eapply edge_in_stop; eauto.
      * intros ([|k] & l & E & B & U); cbn in E.
        -- inversion E; subst. apply Nl. right. destruct U as (r & -> & _). eexists; reflexivity.
        -- apply Nl. apply (B 0 line); [lia|reflexivity].
      * intros F C R. exfalso. eapply reach_from_stop; eauto.
    + rewrite E1, E2, E3 in H. discriminate.
    + rewrite E1, E2, E3 in H. unfold read_file in H. destruct (f (env_locate e t0)) as [other|err] eqn:R0.
      * destruct (rec t0 other im0 ms0) as [[im1 ms1]| |] eqn:Er; try discriminate.
        rewrite Len in H. destruct (Rok _ _ _ _ _ _ Er) as ((A1 & B1 & C1 & D1) & O1).
        destruct (IH _ _ _ _ _ H) as ((A2 & B2 & C2 & D2) & No & Nr). split; [|split].
        -- split; [|split; [|split]].
           ++ intros k v I. apply A2 in I. destruct I as [I|(F & n & l & t & o & Ed & X)].
              ** apply In_paset in I. cbn [fst snd] in I. destruct I as [I|[-> Ek]].
                 --- apply A1 in I. destruct I as [I|(F & n & l & t & o & Ed & X)]; auto.
                     right. exists F, n, l, t, o. split; auto. apply (edge_in_ok file line q t0 pre ls Q Rs Le other F n l t R0). auto.
                 --- right. exists file, (List.length pre), line, t0, other. split; [|split; [|split]]; auto.
                     apply (edge_in_ok file line q t0 pre ls Q Rs Le other _ _ _ _ R0). auto.
              ** right. exists F, n, l, t, o. split; auto.
                 apply (edge_in_ok file line q t0 pre ls Q Rs Le other F n l t R0). auto.
           ++ intros t o R. apply (reach_from_ok file line q t0 pre ls Q Rs Le other t o R0) in R.
              destruct R as [[[-> ->]|R]|R].
              ** apply C2. rewrite aget_paset, path_eqb_refl. discriminate.
              ** apply C2. rewrite aget_paset. destruct (path_eqb t t0); [discriminate|]. apply (B1 t o R).
              ** apply (B2 t o R).
           ++ intros t X. apply C2. rewrite aget_paset. destruct (path_eqb t t0); [discriminate|]. apply C1. auto.
           ++ intros m. rewrite D2, D1. split.
              ** intros [[I|(F & n & l & t & err & Ed & X)]|(F & n & l & t & err & Ed & X)]; auto; right;
                   exists F, n, l, t, err; split; auto; apply (edge_in_ok file line q t0 pre ls Q Rs Le other F n l t R0); auto.
              ** intros [I|(F & n & l & t & err & Ed & R & X)]; auto.
                 apply (edge_in_ok file line q t0 pre ls Q Rs Le other F n l t R0) in Ed.
                 destruct Ed as [(-> & -> & -> & ->)|[Ed|Ed]]; [congruence| |]; [left|]; right; exists F, n, l, t, err; auto.
        -- intros O. apply No. eapply open_in_cons; eauto.
        -- intros F C R. apply (reach_from_ok file line q t0 pre ls Q Rs Le other F C R0) in R. destruct R; eauto.
      * rewrite Len in H. destruct (IH _ _ _ _ _ H) as ((A2 & B2 & C2 & D2) & No & Nr). split; [|split].
        -- split; [|split; [|split]].
           ++ intros k v I. apply A2 in I. destruct I as [I|(F & n & l & t & o & Ed & X)]; auto.
              right. exists F, n, l, t, o. split; auto. apply (edge_in_err file line q t0 pre ls Q Rs Le err F n l t R0). auto.
           ++ intros t o R. apply (reach_from_err file line q t0 pre ls Q Rs Le err t o R0) in R. eauto.
           ++ exact C2.
           ++ intros m. rewrite D2, in_app_iff. cbn [In]. split.
              ** intros [[I|[<-|[]]]|(F & n & l & t & err' & Ed & X)]; auto; right.
                 --- exists file, (List.length pre), line, t0, err. split; [|split]; auto.
                     apply (edge_in_err file line q t0 pre ls Q Rs Le err _ _ _ _ R0). auto.
                 --- exists F, n, l, t, err'. split; auto.
                     apply (edge_in_err file line q t0 pre ls Q Rs Le err F n l t R0). auto.
              ** intros [I|(F & n & l & t & err' & Ed & R & ->)]; auto.
                 apply (edge_in_err file line q t0 pre ls Q Rs Le err F n l t R0) in Ed.
                 destruct Ed as [(-> & -> & -> & ->)|Ed].
                 --- left. right. left. rewrite R0 in R. inversion R; subst. reflexivity.
                 --- right. exists F, n, l, t, err'. auto.
        -- intros O. apply No. eapply open_in_cons; eauto.
        -- intros F C R. apply (reach_from_err file line q t0 pre ls Q Rs Le err F C R0) in R. eauto.
Qed.

Lemma add_imports_ok fuel : rec_ok (add_imports fuel e f c).
Proof.
  induction fuel as [|k IH]; intros file contents im0 ms0 im ms H; [discriminate|].
  rewrite add_imports_S in H. apply (loop_ok _ _ IH (lines contents) []) in H.
  destruct H as (A & No & Nr). split.
  - eapply adds_ext; [| |exact A].
    + intros. apply edge_in_nil.
    + intros. apply reach_from_nil.
  - intros F C [[-> ->]|R]; auto. apply (Nr F C). apply reach_from_nil. auto.
Qed.
End Walk.
