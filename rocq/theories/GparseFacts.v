(** Lemmas about Gql.v: the parser against the grammar. *)
From Verif Require Import Gql SpecGtext.
From Coq Require Import Lia.

Definition stops (starts : gtoken -> bool) (r : list ptok) : Prop := match r with [] => True | t :: _ => starts (snd t) = false end.

Lemma many_sound {A} starts (item : list ptok -> option (A * list ptok)) (I : list ptok -> A -> Prop) :
  (forall ts a r, item ts = Some (a, r) -> exists x, ts = x ++ r /\ I x a) ->
  forall fuel ts l r, many fuel starts item ts = Some (l, r) -> exists x, ts = x ++ r /\ series I x l /\ stops starts r.
Proof.
  intros H. induction fuel as [|k IH]; intros [|t ts] l r E; cbn [many] in E.
  - injection E as <- <-. exists []. repeat split. constructor.
  - destruct (starts (snd t)) eqn:S; [discriminate|]. injection E as <- <-. exists []. repeat split; [constructor|exact S].
  - injection E as <- <-. exists []. repeat split. constructor.
  - destruct (starts (snd t)) eqn:S; [|injection E as <- <-; exists []; repeat split; [constructor|exact S]].
    destruct (item (t :: ts)) as [[a r1]|] eqn:Ei; [|discriminate].
    destruct (many k starts item r1) as [[l' r2]|] eqn:Em; [|discriminate]. injection E as <- <-.
    destruct (H _ _ _ Ei) as (x & -> & Ix). destruct (IH _ _ _ Em) as (y & -> & Sy & St).
    exists (x ++ y). rewrite app_assoc. repeat split; auto. constructor; auto.
Qed.
Lemma many_complete {A} starts (item : list ptok -> option (A * list ptok)) (I : list ptok -> A -> Prop) (F : list ptok -> Prop) :
  (forall x a, I x a -> exists t x', x = t :: x' /\ starts (snd t) = true) ->
  (forall x a r, I x a -> F r -> item (x ++ r) = Some (a, r)) ->
  (forall x a r, I x a -> F (x ++ r)) ->
  forall ts l, series I ts l -> forall r fuel, F r -> stops starts r -> List.length ts <= fuel ->
  many fuel starts item (ts ++ r) = Some (l, r).
Proof.
  intros Hs Hi Hf ts l S. induction S as [|x a y l Ix S IH]; intros r fuel Fr St L.
  - cbn. destruct r as [|t r]; [destruct fuel; reflexivity|]. cbn in St. destruct fuel; cbn [many]; rewrite St; reflexivity.
  - rewrite <- app_assoc. pose proof (Hi x a (y ++ r) Ix) as E.
    assert (Fy : F (y ++ r)). { destruct S; [exact Fr|]. rewrite <- app_assoc. eapply Hf; eauto. }
    specialize (E Fy). destruct (Hs _ _ Ix) as (t & x' & -> & St'). rewrite app_length in L. cbn in L.
    destruct fuel as [|k]; [lia|]. cbn [app many]. rewrite St'. cbn [app] in E. rewrite E.
    rewrite (IH r k); auto. lia.
Qed.
Lemma series_mono {A} (I J : list ptok -> A -> Prop) ts l : (forall x a, I x a -> J x a) -> series I ts l -> series J ts l.
Proof. intros H S. induction S; constructor; auto. Qed.
(** Items of a series are no longer than the series *)
Lemma series_bounded {A} (I : list ptok -> A -> Prop) ts l : series I ts l ->
  series (fun x a => I x a /\ List.length x <= List.length ts) ts l.
Proof.
  intros S. induction S as [|x a y l Ix S IH]; [constructor|]. rewrite app_length. constructor.
  - split; auto. lia.
  - eapply series_mono; [|exact IH]. cbn. intros z b [Iz L]. split; auto. lia.
Qed.

Lemma bare_app a b : bare (a ++ b) = bare a ++ bare b.
Proof. apply map_app. Qed.
Lemma bare_cons p t b : bare ((p, t) :: b) = t :: bare b.
Proof. reflexivity. Qed.
Lemma bare_split ts a b : bare ts = a ++ b -> exists x y, ts = x ++ y /\ bare x = a /\ bare y = b.
Proof. intros E. apply map_eq_app in E. destruct E as (x & y & -> & A & B). exists x, y. auto. Qed.
Lemma bare_nil ts : bare ts = [] -> ts = [].
Proof. destruct ts; [auto|discriminate]. Qed.
Lemma bare_head ts t a : bare ts = t :: a -> exists p x, ts = (p, t) :: x /\ bare x = a.
Proof. destruct ts as [|[p t'] x]; [discriminate|]. intros E. injection E as -> <-. eauto. Qed.
(** ** Values *)
Lemma starts_value_head const x : value_toks const x -> exists t x', x = t :: x' /\ starts_value const t = true.
Proof. intros V. destruct V; cbn; eauto. subst. cbn. eauto. Qed.

Lemma values_series const vs : values_toks const vs -> forall ts, bare ts = vs ->
  exists l, series (fun x v => v = bare x /\ value_toks const v) ts l /\ List.concat l = vs.
Proof.
  induction 1 as [|v vs V _ IH]; intros ts E.
  - apply bare_nil in E. subst. exists []. split; constructor.
  - apply bare_split in E. destruct E as (x & y & -> & <- & E). destruct (IH y E) as (l & S & C).
    exists (bare x :: l). split; [constructor; auto|]. cbn [List.concat]. rewrite C. reflexivity.
Qed.
Lemma series_values const ts l : series (fun x v => v = bare x /\ value_toks const v) ts l -> values_toks const (List.concat l) /\ bare ts = List.concat l.
Proof.
  induction 1 as [|x v y l [-> V] S [IH1 IH2]]; [split; constructor|]. cbn [List.concat]. split; [constructor; auto|].
  rewrite bare_app. f_equal. exact IH2.
Qed.
Definition member_toks (const : bool) (x : list ptok) (v : list gtoken) : Prop :=
  v = bare x /\ exists n w, v = GName n :: GPunct GColon :: w /\ value_toks const w.
Lemma members_series const vs : members_toks const vs -> forall ts, bare ts = vs ->
  exists l, series (member_toks const) ts l /\ List.concat l = vs.
Proof.
  induction 1 as [|n v vs V _ IH]; intros ts E.
  - apply bare_nil in E. subst. exists []. split; constructor.
  - change (bare ts = (GName n :: GPunct GColon :: v) ++ vs) in E. apply bare_split in E. destruct E as (x & y & -> & Ex & E).
    destruct (IH y E) as (l & S & C). exists (bare x :: l). split.
    + constructor; auto. split; auto. exists n, v. split; auto.
    + cbn [List.concat]. rewrite C, Ex. reflexivity.
Qed.
Lemma series_members const ts l : series (member_toks const) ts l -> members_toks const (List.concat l) /\ bare ts = List.concat l.
Proof.
  induction 1 as [|x v y l [-> (n & w & E & V)] S [IH1 IH2]]; [split; constructor|]. cbn [List.concat]. split.
  - rewrite E. apply (mts_cons const n w); auto.
  - rewrite bare_app. f_equal. exact IH2.
Qed.

Lemma value_sound const : forall fuel ts v r, gp_value fuel const ts = Some (v, r) ->
  exists x, ts = x ++ r /\ (v = bare x /\ value_toks const v).
Proof.
  induction fuel as [|k IH]; intros ts v r E; [discriminate|]. cbn [gp_value] in E.
  destruct ts as [|[p t] ts]; [discriminate|].
  destruct t as [q|n|n|n|n].
  - destruct q; try discriminate.
    + destruct ts as [|[p' t'] ts]; [discriminate|]. destruct t'; try discriminate. destruct const eqn:Ec; [discriminate|].
      injection E as <- <-. exists [(p, GPunct GDollar); (p', GName s)]. repeat split. constructor. auto.
    + destruct (many (List.length ts) (starts_value const) (gp_value k const) ts) as [[vs [|[p' t'] r']]|] eqn:M; try discriminate.
      destruct t' as [[]| | | |]; try discriminate. injection E as <- <-.
      destruct (many_sound _ _ _ IH _ _ _ _ M) as (x & -> & S & _). apply series_values in S. destruct S as [V Eb].
      exists ((p, GPunct GOpenBr) :: x ++ [(p', GPunct GCloseBr)]). split; [cbn; rewrite <- app_assoc; reflexivity|].
      split; [|constructor; auto]. rewrite bare_cons, bare_app, Eb. reflexivity.
    + match type of E with context [many ?a ?b ?c ts] => destruct (many a b c ts) as [[vs [|[p' t'] r']]|] eqn:M end; try discriminate.
      destruct t' as [[]| | | |]; try discriminate. injection E as <- <-.
      apply (many_sound _ _ (member_toks const)) in M.
      * destruct M as (x & -> & S & _). apply series_members in S. destruct S as [V Eb].
        exists ((p, GPunct GOpenCu) :: x ++ [(p', GPunct GCloseCu)]). split; [cbn; rewrite <- app_assoc; reflexivity|].
        split; [|constructor; auto]. rewrite bare_cons, bare_app, Eb. reflexivity.
      * intros ts0 a r0 H. destruct ts0 as [|[p1 [|f| | |]] [|[p2 [[]| | | |]] ts0]]; try discriminate.
        destruct (gp_value k const ts0) as [[w r1]|] eqn:G; [|discriminate]. injection H as <- <-.
        destruct (IH _ _ _ G) as (x & -> & -> & V). exists ((p1, GName f) :: (p2, GPunct GColon) :: x). split; auto. split; auto.
        exists f, (bare x). auto.
  - injection E as <- <-. exists [(p, GName n)]. repeat split. constructor.
  - injection E as <- <-. exists [(p, GNum n)]. repeat split. constructor.
  - injection E as <- <-. exists [(p, GString n)]. repeat split. constructor.
  - injection E as <- <-. exists [(p, GBlock n)]. repeat split. constructor.
Qed.

Lemma bare_length ts : List.length (bare ts) = List.length ts.
Proof. apply map_length. Qed.
Lemma value_complete const : forall fuel x r, value_toks const (bare x) -> List.length x <= fuel ->
  gp_value fuel const (x ++ r) = Some (bare x, r).
Proof.
  induction fuel as [|k IH]; intros x r V L.
  - destruct (starts_value_head _ _ V) as (t & x' & E & _). destruct x; [discriminate|cbn in L; lia].
  - inversion V as [n E|n E|n E|n E|n C E|vs Vs E|vs Vs E].
    1-4: destruct x as [|[p t] [|]]; try discriminate; injection E as <-; reflexivity.
    + destruct x as [|[p t] [|[p' t'] [|]]]; try discriminate. injection E as <- <-. cbn. rewrite C. reflexivity.
    + symmetry in E. apply bare_head in E. destruct E as (p & x' & -> & E). apply bare_split in E.
      destruct E as (y & z & -> & Ey & Ez). apply bare_head in Ez. destruct Ez as (p' & z' & -> & Ez). apply bare_nil in Ez. subst z'.
      cbn [app gp_value]. rewrite <- app_assoc. destruct (values_series _ _ Vs y Ey) as (l & S & C).
      cbn [List.length] in L. rewrite app_length in L. cbn in L.
      match goal with |- context [many ?a ?b ?c (y ++ ?z)] => assert (M : many a b c (y ++ z) = Some (l, z)) end.
      { eapply (many_complete _ _ (fun x v => (v = bare x /\ value_toks const v) /\ List.length x <= List.length y) (fun _ => True));
          [| |auto|exact (series_bounded _ _ _ S)|exact I|reflexivity|rewrite app_length; lia].
        - intros x a [[-> H] _]. destruct (starts_value_head _ _ H) as (t & x' & E & St). apply bare_head in E.
          destruct E as (p0 & x0 & -> & _). eauto.
        - intros x a r0 [[-> H] Lx] _. apply IH; auto. lia. }
      cbn [app] in *. rewrite M, C. reflexivity.
    + symmetry in E. apply bare_head in E. destruct E as (p & x' & -> & E). apply bare_split in E.
      destruct E as (y & z & -> & Ey & Ez). apply bare_head in Ez. destruct Ez as (p' & z' & -> & Ez). apply bare_nil in Ez. subst z'.
      cbn [app gp_value]. rewrite <- app_assoc. destruct (members_series _ _ Vs y Ey) as (l & S & C).
      cbn [List.length] in L. rewrite app_length in L. cbn in L.
      match goal with |- context [many ?a ?b ?c (y ++ ?z)] => assert (M : many a b c (y ++ z) = Some (l, z)) end.
      { eapply (many_complete _ _ (fun x v => member_toks const x v /\ List.length x <= List.length y) (fun _ => True));
          [| |auto|exact (series_bounded _ _ _ S)|exact I|reflexivity|rewrite app_length; lia].
        - intros x a [[-> (n & w & E & _)] _]. apply bare_head in E. destruct E as (p0 & x0 & -> & _). eauto.
        - intros x a r0 [[-> (n & w & E & V')] Lx] _. apply bare_head in E. destruct E as (p0 & x0 & -> & E).
          apply bare_head in E. destruct E as (p1 & x1 & -> & E). cbn [app]. rewrite IH; [reflexivity|rewrite E; auto|cbn in Lx; lia]. }
      cbn [app] in *. rewrite M, C. reflexivity.
Qed.

(** ** What may follow *)
Definition avoid (qs : list gpunct) (r : list ptok) : Prop :=
  match r with (_, GPunct q) :: _ => ~ In q qs | _ => True end.
Definition headed (q : gpunct) (x : list ptok) : Prop := x = [] \/ exists p y, x = (p, GPunct q) :: y.
Lemma avoid_app q qs x r : headed q x -> ~ In q qs -> avoid qs r -> avoid qs (x ++ r).
Proof. intros [->|(p & y & ->)] N A; auto. Qed.
Lemma avoid_less qs qs' r : (forall q, In q qs' -> In q qs) -> avoid qs r -> avoid qs' r.
Proof. intros H. destruct r as [|[p []] r]; cbn; auto. Qed.
Ltac less := eapply avoid_less; [|eassumption]; cbn; tauto.

(** ** Types *)
Lemma type_sound : forall fuel ts t r, gp_type fuel ts = Some (t, r) -> exists x, ts = x ++ r /\ type_toks (bare x) t.
Proof.
  induction fuel as [|k IH]; intros ts t r E; [discriminate|]. cbn [gp_type] in E.
  assert (N : forall u r0 x, plain_type (bare x) u ->
    match r0 with (_, GPunct GBang) :: r' => Some (VTNonNull u, r') | _ => Some (u, r0) end = Some (t, r) ->
    exists y, x ++ r0 = y ++ r /\ type_toks (bare y) t).
  { intros u r0 x P H. assert (H' : (exists p, r0 = (p, GPunct GBang) :: r /\ t = VTNonNull u) \/ (r0 = r /\ t = u)).
    { destruct r0 as [|[p [[]| | | |]] r0]; injection H as <- <-; eauto. }
    destruct H' as [(p & -> & ->)|[-> ->]].
    - exists (x ++ [(p, GPunct GBang)]). rewrite <- app_assoc. split; [reflexivity|]. rewrite bare_app. apply ty_non_null. exact P.
    - exists x. split; [reflexivity|]. apply ty_plain. exact P. }
  destruct ts as [|[p [q|n| | |]] ts]; try discriminate.
  - destruct q; try discriminate. destruct (gp_type k ts) as [[u [|[p' [[]| | | |]] r1]]|] eqn:G; try discriminate.
    destruct (IH _ _ _ G) as (x & -> & T).
    destruct (N (VTList u) r1 ((p, GPunct GOpenBr) :: x ++ [(p', GPunct GCloseBr)])) as (y & Ey & Ty); auto.
    + rewrite bare_cons, bare_app. constructor. auto.
    + exists y. split; auto. rewrite <- Ey. cbn. rewrite <- app_assoc. reflexivity.
  - apply (N (VTNamed n) ts [(p, GName n)]); auto. constructor.
Qed.
Lemma type_complete : forall fuel x t r, type_toks (bare x) t -> avoid [GBang] r -> List.length x <= fuel ->
  gp_type fuel (x ++ r) = Some (t, r).
Proof.
  induction fuel as [|k IH]; intros x t r T A L.
  - exfalso. destruct x; [|cbn in L; lia]. inversion T as [ts u P E|ts u P E].
    + subst. inversion P.
    + destruct ts; discriminate.
  - assert (N : forall y u z, plain_type (bare y) u -> List.length y <= S k ->
      gp_type (S k) (y ++ z) = match z with (_, GPunct GBang) :: r' => Some (VTNonNull u, r') | _ => Some (u, z) end).
    { intros y u z P Ly. inversion P as [n E|ts v Tv E]; subst.
      - symmetry in E. apply bare_head in E. destruct E as (p & y' & -> & E). apply bare_nil in E. subst. reflexivity.
      - symmetry in E. apply bare_head in E. destruct E as (p & y' & -> & E). apply bare_split in E. destruct E as (x1 & x2 & -> & <- & E).
        apply bare_head in E. destruct E as (p' & x3 & -> & E). apply bare_nil in E. subst. cbn [app gp_type].
        rewrite <- app_assoc. cbn [app]. cbn in Ly. rewrite app_length in Ly. cbn in Ly.
        rewrite (IH x1 v); [reflexivity|auto|cbn; intuition discriminate|lia]. }
    inversion T as [ts u P E|ts u P E].
    + subst. rewrite (N x t r P L). destruct r as [|[p [[]| | | |]] r]; auto. exfalso. apply A. cbn. auto.
    + symmetry in E. apply bare_split in E. destruct E as (x1 & x2 & -> & E1 & E). apply bare_head in E.
      destruct E as (p' & x3 & -> & E). apply bare_nil in E. subst. rewrite <- app_assoc. rewrite app_length in L.
      rewrite (N x1 u); [reflexivity|auto|lia].
Qed.

(** ** Arguments and directives *)
Lemma arg_sound ts a r : gp_arg ts = Some (a, r) -> exists x, ts = x ++ r /\ arg_toks x a.
Proof.
  unfold gp_arg. intros E. destruct ts as [|[p [|n| | |]] [|[p' [[]| | | |]] ts]]; try discriminate.
  destruct (gp_value (List.length ts) false ts) as [[v r1]|] eqn:G; [|discriminate]. injection E as <- <-.
  destruct (value_sound _ _ _ _ _ G) as (x & -> & -> & V). exists ((p, GName n) :: (p', GPunct GColon) :: x). split; auto. constructor. auto.
Qed.
Lemma arg_complete x a r : arg_toks x a -> gp_arg (x ++ r) = Some (a, r).
Proof.
  intros A. destruct A as [p n p' v V]. cbn [app gp_arg]. rewrite value_complete; auto. rewrite app_length. lia.
Qed.
Lemma args_sound ts l r : gp_args ts = Some (l, r) -> exists x, ts = x ++ r /\ args_toks x l.
Proof.
  intros E. assert (C : (exists p r0, ts = (p, GPunct GOpen) :: r0) \/ (ts = r /\ l = [])).
  { destruct ts as [|[p [[]| | | |]] ts]; cbn in E; try (injection E as <- <-; auto). eauto. }
  destruct C as [(p & r0 & ->)|[-> ->]]; [|exists []; split; auto; constructor].
  cbn [gp_args] in E. match type of E with context [many ?a ?b ?c ?d] => destruct (many a b c d) as [[[|a' l'] [|[p' [[]| | | |]] r1]]|] eqn:M end; try discriminate.
  injection E as <- <-. destruct (many_sound _ _ _ arg_sound _ _ _ _ M) as (x & -> & S & _).
  exists ((p, GPunct GOpen) :: x ++ [(p', GPunct GClose)]). split; [cbn; rewrite <- app_assoc; auto|]. constructor. auto.
Qed.
Lemma args_complete x l r : args_toks x l -> avoid [GOpen] r -> gp_args (x ++ r) = Some (l, r).
Proof.
  intros A Av. destruct A as [|p ts a l p' S].
  - destruct r as [|[p [[]| | | |]] r]; auto. exfalso. apply Av. cbn. auto.
  - cbn [app gp_args]. rewrite <- app_assoc. cbn [app].
    rewrite (many_complete is_gname gp_arg arg_toks (fun _ => True)) with (l := a :: l); auto.
    + intros x b A. destruct A. eauto.
    + intros x b r0 A _. apply arg_complete. auto.
    + reflexivity.
    + rewrite app_length. lia.
Qed.
Lemma args_headed x l : args_toks x l -> headed GOpen x.
Proof. intros A. destruct A; [left|right]; eauto. Qed.
Lemma dir_sound ts a r : gp_directive ts = Some (a, r) -> exists x, ts = x ++ r /\ dir_toks x a.
Proof.
  unfold gp_directive. intros E. destruct ts as [|[p [[]| | | |]] [|[p' [|n| | |]] ts]]; try discriminate.
  destruct (gp_args ts) as [[l r1]|] eqn:G; [|discriminate]. injection E as <- <-.
  destruct (args_sound _ _ _ G) as (x & -> & A). exists ((p, GPunct GAt) :: (p', GName n) :: x). split; auto. constructor. auto.
Qed.
Lemma dirs_sound ts l r : gp_dirs ts = Some (l, r) -> exists x, ts = x ++ r /\ dirs_toks x l /\ avoid [GAt] r.
Proof.
  intros E. destruct (many_sound _ _ _ dir_sound _ _ _ _ E) as (x & -> & S & St). exists x. split; auto. split; auto.
  destruct r as [|[p [[]| | | |]] r]; cbn in *; try discriminate; intuition discriminate.
Qed.
Lemma dirs_complete x l r : dirs_toks x l -> avoid [GOpen; GAt] r -> gp_dirs (x ++ r) = Some (l, r).
Proof.
  intros S A. unfold gp_dirs. apply (many_complete _ _ dir_toks (avoid [GOpen])) with (ts := x); auto.
  - intros y d D. destruct D. eauto.
  - intros y d r0 D Av. destruct D as [p p' n ts l0 Ar]. cbn [app gp_directive]. rewrite args_complete with (l := l0); auto.
  - intros y d r0 D. destruct D. cbn. intuition discriminate.
  - less.
  - destruct r as [|[p [[]| | | |]] r]; cbn in *; auto. tauto.
  - rewrite app_length. lia.
Qed.
Lemma dirs_headed x l : dirs_toks x l -> headed GAt x.
Proof. intros S. destruct S as [|y d z l D _]; [left; auto|]. destruct D. right. cbn. eauto. Qed.

(** ** Selections *)
Lemma sels_series ts l : sels_toks ts l <-> series sel_toks ts l.
Proof. split; intros S; induction S; constructor; auto. Qed.
Lemma set_headed x l : set_toks x l -> exists p y, x = (p, GPunct GOpenCu) :: y.
Proof. intros S. destruct S. eauto. Qed.
Lemma opt_set_headed x l : opt_set_toks x l -> headed GOpenCu x.
Proof. intros S. destruct S as [|ts l S]; [left; auto|]. apply set_headed in S. right. auto. Qed.
Lemma braces_sound sel : (forall ts s r, sel ts = Some (s, r) -> exists x, ts = x ++ r /\ sel_toks x s) ->
  forall ts l r, gp_braces sel ts = Some (l, r) -> exists x, ts = x ++ r /\ set_toks x l.
Proof.
  intros H ts l r E. destruct ts as [|[p [[]| | | |]] r0]; try discriminate.
  cbn [gp_braces] in E. match type of E with context [many ?a ?b ?c ?d] => destruct (many a b c d) as [[[|a' l'] [|[p' [[]| | | |]] r1]]|] eqn:M end; try discriminate.
  injection E as <- <-. destruct (many_sound _ _ _ H _ _ _ _ M) as (x & -> & S & _).
  exists ((p, GPunct GOpenCu) :: x ++ [(p', GPunct GCloseCu)]). split; [cbn; rewrite <- app_assoc; auto|]. constructor. apply sels_series. auto.
Qed.
Definition after_selection : list gpunct := [GOpen; GAt; GOpenCu; GColon].
Lemma sel_first x s : sel_toks x s -> exists t y, x = t :: y /\ starts_selection (snd t) = true.
Proof. intros S. destruct S; cbn [app]; eexists; eexists; (split; [reflexivity|reflexivity]). Qed.
Lemma sel_avoids x s r : sel_toks x s -> avoid after_selection (x ++ r).
Proof. intros S. apply sel_first in S. destruct S as ([p t] & y & -> & S). destruct t as [[]| | | |]; try discriminate; cbn; intuition discriminate. Qed.
Lemma braces_complete k x l r :
  (forall x s r, sel_toks x s -> avoid after_selection r -> List.length x <= k -> gp_selection k (x ++ r) = Some (s, r)) ->
  set_toks x l -> List.length x <= S k -> gp_braces (gp_selection k) (x ++ r) = Some (l, r).
Proof.
  intros H S L. destruct S as [p ts s l p' S]. apply sels_series, series_bounded in S. cbn [app gp_braces].
  rewrite <- app_assoc. cbn [app]. cbn in L. rewrite app_length in L. cbn in L.
  rewrite (many_complete starts_selection (gp_selection k) (fun y b => sel_toks y b /\ List.length y <= List.length ts) (avoid after_selection)) with (l := s :: l); auto.
  - intros y b [Y _]. apply sel_first in Y. auto.
  - intros y b r0 [Y Ly] Av. apply H; auto. lia.
  - intros y b r0 [Y _]. eapply sel_avoids; eauto.
  - cbn. intuition discriminate.
  - reflexivity.
  - rewrite app_length. lia.
Qed.
Lemma selection_sound : forall fuel ts s r, gp_selection fuel ts = Some (s, r) -> exists x, ts = x ++ r /\ sel_toks x s.
Proof.
  induction fuel as [|k IH]; intros ts s r E; [discriminate|]. cbn [gp_selection] in E. pose proof (braces_sound _ IH) as B.
  set (F := fun p alias n r => match gp_args r with
        | None => None
        | Some (args, r1) =>
            match gp_dirs r1 with
            | None => None
            | Some (ds, r2) =>
                match r2 with
                | (_, GPunct GOpenCu) :: _ => match gp_braces (gp_selection k) r2 with
                                          | Some (sub, r3) => Some (SField p alias n args ds sub, r3)
                                          | None => None
                                          end
                | _ => Some (SField p alias n args ds [], r2)
                end
            end
        end).
  set (N := fun p cond r => match gp_dirs r with
        | None => None
        | Some (ds, r1) => match gp_braces (gp_selection k) r1 with
                           | Some (sub, r2) => Some (SInline p cond ds sub, r2)
                           | None => None
                           end
        end).
  assert (HF : forall p alias n ts, F p alias n ts = Some (s, r) -> exists a args d dirs b sub,
    ts = (a ++ d ++ b) ++ r /\ args_toks a args /\ dirs_toks d dirs /\ opt_set_toks b sub /\ s = SField p alias n args dirs sub).
  { intros p alias n us H. unfold F in H. destruct (gp_args us) as [[args r1]|] eqn:Ga; [|discriminate].
    destruct (gp_dirs r1) as [[ds r2]|] eqn:Gd; [|discriminate].
    destruct (args_sound _ _ _ Ga) as (a & -> & A). destruct (dirs_sound _ _ _ Gd) as (d & -> & D & _).
    assert (C : (exists sub, gp_braces (gp_selection k) r2 = Some (sub, r) /\ s = SField p alias n args ds sub) \/ (r2 = r /\ s = SField p alias n args ds [])).
    { destruct r2 as [|[q [[]| | | |]] r2]; try (injection H as <- <-; auto).
      match type of H with context [gp_braces ?a ?b] => destruct (gp_braces a b) as [[sub r3]|] eqn:Gb end; [|discriminate].
      injection H as <- <-. eauto. }
    destruct C as [(sub & Gb & ->)|[-> ->]].
    - destruct (B _ _ _ Gb) as (b & -> & Sb). exists a, args, d, ds, b, sub. rewrite <- !app_assoc. repeat split; auto. constructor. auto.
    - exists a, args, d, ds, [], []. rewrite app_nil_r, <- app_assoc. repeat split; auto. constructor. }
  assert (HN : forall p cond ts, N p cond ts = Some (s, r) -> exists d dirs b sub,
    ts = (d ++ b) ++ r /\ dirs_toks d dirs /\ set_toks b sub /\ s = SInline p cond dirs sub).
  { intros p cond us H. unfold N in H. destruct (gp_dirs us) as [[ds r1]|] eqn:Gd; [|discriminate].
    destruct (gp_braces (gp_selection k) r1) as [[sub r2]|] eqn:Gb; [|discriminate]. injection H as <- <-.
    destruct (dirs_sound _ _ _ Gd) as (d & -> & D & _). destruct (B _ _ _ Gb) as (b & -> & Sb).
    exists d, ds, b, sub. rewrite <- app_assoc. auto. }
  destruct ts as [|[p [q|a| | |]] ts]; try discriminate.
  - destruct q; try discriminate.
    assert (I : forall p1 t ts', N p1 None ((p1, t) :: ts') = Some (s, r) -> exists x, (p, GPunct GDots) :: (p1, t) :: ts' = x ++ r /\ sel_toks x s).
    { intros p1 t ts' H. destruct (HN _ _ _ H) as (d & dirs & b & sub & Eq & D & Sb & ->).
      exists ((p, GPunct GDots) :: d ++ b). split; [cbn; rewrite Eq; reflexivity|].
      destruct (d ++ b) as [|[p2 t2] y] eqn:Y.
      - destruct Sb. destruct d; discriminate.
      - injection Eq as -> -> _. rewrite <- Y. eapply st_inline; eauto. }
    destruct ts as [|[p1 [q|n| | |]] ts]; try discriminate; try (apply I; exact E).
    destruct (String.eqb n "on") eqn:On.
    + apply String.eqb_eq in On. subst. destruct ts as [|[p2 [|c| | |]] ts]; try discriminate.
      destruct (HN _ _ _ E) as (d & dirs & b & sub & -> & D & Sb & ->).
      eexists ((p, GPunct GDots) :: (p1, GName "on") :: (p2, GName c) :: d ++ b). split; [reflexivity|]. constructor; auto.
    + apply String.eqb_neq in On. destruct (gp_dirs ts) as [[ds r']|] eqn:Gd; [|discriminate]. injection E as <- <-.
      destruct (dirs_sound _ _ _ Gd) as (d & -> & D & _). exists ((p, GPunct GDots) :: (p1, GName n) :: d). split; auto. constructor; auto.
  - assert (C : (exists p1 p2 n ts', ts = (p1, GPunct GColon) :: (p2, GName n) :: ts' /\ F p (Some a) n ts' = Some (s, r)) \/ F p None a ts = Some (s, r)).
    { destruct ts as [|[p1 [[]| | | |]] ts]; auto. destruct ts as [|[p2 [|n| | |]] ts]; try discriminate. left. eauto 6. }
    destruct C as [(p1 & p2 & n & ts' & -> & H)|H]; destruct (HF _ _ _ _ H) as (x & args & d & dirs & b & sub & -> & A & D & Sb & ->).
    + eexists ((p, GName a) :: (p1, GPunct GColon) :: (p2, GName n) :: x ++ d ++ b). split; [reflexivity|]. constructor; auto.
    + eexists ((p, GName a) :: x ++ d ++ b). split; [reflexivity|]. constructor; auto.
Qed.
Lemma selection_complete : forall fuel x s r, sel_toks x s -> avoid after_selection r -> List.length x <= fuel ->
  gp_selection fuel (x ++ r) = Some (s, r).
Proof.
  induction fuel as [|k IH]; intros x s r S A L.
  - exfalso. destruct S; cbn in L; lia.
  - pose proof (fun x l r => braces_complete k x l r IH) as B.
    assert (HF : forall p alias n a args d dirs b sub, args_toks a args -> dirs_toks d dirs -> opt_set_toks b sub -> List.length (a ++ d ++ b) <= k ->
      match gp_args ((a ++ d ++ b) ++ r) with
        | None => None
        | Some (args, r1) =>
            match gp_dirs r1 with
            | None => None
            | Some (ds, r2) =>
                match r2 with
                | (_, GPunct GOpenCu) :: _ => match gp_braces (gp_selection k) r2 with
                                          | Some (sub, r3) => Some (SField p alias n args ds sub, r3)
                                          | None => None
                                          end
                | _ => Some (SField p alias n args ds [], r2)
                end
            end
        end = Some (SField p alias n args dirs sub, r)).
    { intros p alias n a args d dirs b sub Ha Hd Hb Hl. rewrite <- !app_assoc.
      assert (Av : avoid [GOpen; GAt] (b ++ r)).
      { eapply avoid_app; [eapply opt_set_headed; eauto|cbn; intuition discriminate|]. unfold after_selection in A. less. }
      rewrite args_complete with (l := args); auto.
      2:{ eapply avoid_app; [eapply dirs_headed; eauto|cbn; intuition discriminate|]. less. }
      rewrite dirs_complete with (l := dirs); auto. rewrite !app_length in Hl.
      destruct Hb as [|b sub Hb].
      - cbn [app]. destruct r as [|[q [[]| | | |]] r]; auto. exfalso. apply A. cbn. auto.
      - pose proof (B b sub r Hb) as Bb. destruct (set_headed _ _ Hb) as (q & y & ->). cbn [app] in *. rewrite Bb; [reflexivity|lia]. }
    assert (HN : forall p cond d dirs b sub, dirs_toks d dirs -> set_toks b sub -> List.length (d ++ b) <= k ->
      match gp_dirs ((d ++ b) ++ r) with
        | None => None
        | Some (ds, r1) => match gp_braces (gp_selection k) r1 with
                           | Some (sub, r2) => Some (SInline p cond ds sub, r2)
                           | None => None
                           end
        end = Some (SInline p cond dirs sub, r)).
    { intros p cond d dirs b sub Hd Hb Hl. rewrite <- !app_assoc. rewrite app_length in Hl.
      rewrite dirs_complete with (l := dirs); auto.
      - rewrite (B b sub r Hb); auto. lia.
      - destruct (set_headed _ _ Hb) as (q & y & ->). cbn. intuition discriminate. }
    destruct S as [p n a args d dirs b sub Ha Hd Hb|p n p1 p2 m a args d dirs b sub Ha Hd Hb|p0 p n d dirs Hn Hd|p0 p p1 c d dirs b sub Hd Hb|p0 p t y d dirs b sub Hd Hb Hy]; cbn in L.
    + cbn [app gp_selection].
      assert (Av : avoid [GColon] ((a ++ d ++ b) ++ r)).
      { rewrite <- !app_assoc. eapply avoid_app; [eapply args_headed; eauto|cbn; intuition discriminate|].
        eapply avoid_app; [eapply dirs_headed; eauto|cbn; intuition discriminate|].
        eapply avoid_app; [eapply opt_set_headed; eauto|cbn; intuition discriminate|]. unfold after_selection in A. less. }
      specialize (HF p None n a args d dirs b sub Ha Hd Hb ltac:(lia)).
      destruct ((a ++ d ++ b) ++ r) as [|[q [[]| | | |]] z]; try exact HF. exfalso. apply Av. cbn. auto.
    + cbn [app gp_selection]. apply HF; auto. lia.
    + cbn [app gp_selection]. apply String.eqb_neq in Hn. rewrite Hn. rewrite dirs_complete with (l := dirs); auto. unfold after_selection in A. less.
    + cbn [app gp_selection]. rewrite String.eqb_refl. apply HN; auto. lia.
    + cbn [app gp_selection]. specialize (HN p None d dirs b sub Hd Hb ltac:(lia)). rewrite Hy in *. cbn [app] in *.
      assert (T : exists q, t = GPunct q).
      { apply dirs_headed in Hd. destruct Hd as [->|(q & z & ->)].
        - destruct (set_headed _ _ Hb) as (q & z & ->). injection Hy as _ <- _. eauto.
        - injection Hy as _ <- _. eauto. }
      destruct T as (q & ->). exact HN.
Qed.
Lemma set_sound ts l r : gp_set ts = Some (l, r) -> exists x, ts = x ++ r /\ set_toks x l.
Proof. apply braces_sound. apply selection_sound. Qed.
Lemma set_complete x l r : set_toks x l -> gp_set (x ++ r) = Some (l, r).
Proof.
  intros S. unfold gp_set. rewrite app_length. apply braces_complete; auto; [|lia].
  intros y s r0. apply selection_complete.
Qed.

(** ** Variables *)
Lemma var_sound ts a r : gp_var ts = Some (a, r) -> exists x, ts = x ++ r /\ var_toks x a.
Proof.
  unfold gp_var. intros E. destruct ts as [|[p [[]| | | |]] [|[p1 [|n| | |]] [|[p2 [[]| | | |]] ts]]]; try discriminate.
  destruct (gp_type (List.length ts) ts) as [[t r1]|] eqn:G; [|discriminate]. destruct (type_sound _ _ _ _ G) as (x & -> & T).
  assert (C : (exists p3 r2, r1 = (p3, GPunct GEquals) :: r2) \/ (r1 = r /\ a = {| vd_pos := p; vd_name := n; vd_type := t; vd_default := None |})).
  { destruct r1 as [|[p3 [[]| | | |]] r1]; try (injection E as <- <-; auto). eauto. }
  destruct C as [(p3 & r2 & ->)|[-> ->]].
  - match type of E with context [gp_value ?a ?b ?c] => destruct (gp_value a b c) as [[v r3]|] eqn:Gv end; [|discriminate]. injection E as <- <-.
    destruct (value_sound _ _ _ _ _ Gv) as (y & -> & -> & V).
    exists ((p, GPunct GDollar) :: (p1, GName n) :: (p2, GPunct GColon) :: x ++ (p3, GPunct GEquals) :: y).
    split; [cbn; rewrite <- app_assoc; reflexivity|]. constructor; auto.
  - exists ((p, GPunct GDollar) :: (p1, GName n) :: (p2, GPunct GColon) :: x). split; auto. constructor. auto.
Qed.
Lemma var_complete x a r : var_toks x a -> avoid [GBang; GEquals] r -> gp_var (x ++ r) = Some (a, r).
Proof.
  intros V A. destruct V as [p p1 n p2 ts t T|p p1 n p2 ts t p3 v T V].
  - cbn [app gp_var]. rewrite type_complete with (t := t); auto; [|less|rewrite app_length; lia].
    destruct r as [|[q [[]| | | |]] r]; auto. exfalso. apply A. cbn. auto.
  - cbn [app gp_var]. rewrite <- app_assoc. cbn [app].
    rewrite type_complete with (t := t); auto; [|cbn; intuition discriminate|rewrite app_length; lia].
    rewrite value_complete; auto. rewrite app_length. lia.
Qed.
Lemma vars_sound ts l r : gp_vars ts = Some (l, r) -> exists x, ts = x ++ r /\ vars_toks x l.
Proof.
  intros E. assert (C : (exists p r0, ts = (p, GPunct GOpen) :: r0) \/ (ts = r /\ l = [])).
  { destruct ts as [|[p [[]| | | |]] ts]; cbn in E; try (injection E as <- <-; auto). eauto. }
  destruct C as [(p & r0 & ->)|[-> ->]]; [|exists []; split; auto; constructor].
  cbn [gp_vars] in E. match type of E with context [many ?a ?b ?c ?d] => destruct (many a b c d) as [[[|a' l'] [|[p' [[]| | | |]] r1]]|] eqn:M end; try discriminate.
  injection E as <- <-. destruct (many_sound _ _ _ var_sound _ _ _ _ M) as (x & -> & S & _).
  exists ((p, GPunct GOpen) :: x ++ [(p', GPunct GClose)]). split; [cbn; rewrite <- app_assoc; auto|]. constructor. auto.
Qed.
Lemma vars_complete x l r : vars_toks x l -> avoid [GOpen] r -> gp_vars (x ++ r) = Some (l, r).
Proof.
  intros A Av. destruct A as [|p ts a l p' S].
  - destruct r as [|[p [[]| | | |]] r]; auto. exfalso. apply Av. cbn. auto.
  - cbn [app gp_vars]. rewrite <- app_assoc. cbn [app].
    match goal with |- context [many ?f ?b ?c (ts ++ ?z)] => assert (M : many f b c (ts ++ z) = Some (a :: l, z)) end.
    { eapply (many_complete _ gp_var var_toks (avoid [GBang; GEquals])) with (l := a :: l); auto.
      - intros x b V. destruct V; eexists; eexists; (split; [reflexivity|reflexivity]).
      - intros x b r0 V Ar. apply var_complete; auto.
      - intros x b r0 V. destruct V; cbn; intuition discriminate.
      - cbn. intuition discriminate.
      - reflexivity.
      - rewrite app_length. lia. }
    rewrite M. reflexivity.
Qed.
Lemma vars_headed x l : vars_toks x l -> headed GOpen x.
Proof. intros A. destruct A; [left|right]; eauto. Qed.

(** ** Definitions *)
Lemma operation_sound k p ts d r : gp_operation k p ts = Some (d, r) -> exists n name v vars ds dirs b sels,
  ts = (n ++ v ++ ds ++ b) ++ r /\ opt_name_toks n name /\ vars_toks v vars /\ dirs_toks ds dirs /\ set_toks b sels /\ d = DOp (OpNamed k p name vars dirs sels).
Proof.
  unfold gp_operation. intros E.
  assert (C : exists n name ts', ts = n ++ ts' /\ opt_name_toks n name /\ match ts with (_, GName n) :: r => (Some n, r) | _ => (None, ts) end = (name, ts')).
  { destruct ts as [|[q [|n| | |]] ts].
    3:{ exists [(q, GName n)], (Some n), ts. repeat split. constructor. }
    all: eexists [], None, _; repeat split; constructor. }
  destruct C as (n & name & ts' & -> & O & C). rewrite C in E.
  destruct (gp_vars ts') as [[vars r1]|] eqn:Gv; [|discriminate]. destruct (gp_dirs r1) as [[ds r2]|] eqn:Gd; [|discriminate].
  destruct (gp_set r2) as [[sels r3]|] eqn:Gs; [|discriminate]. injection E as <- <-.
  destruct (vars_sound _ _ _ Gv) as (v & -> & V). destruct (dirs_sound _ _ _ Gd) as (x & -> & D & _). destruct (set_sound _ _ _ Gs) as (b & -> & B).
  exists n, name, v, vars, x, ds, b, sels. rewrite <- !app_assoc. repeat split; auto.
Qed.
Lemma operation_complete k p n name v vars ds dirs b sels r : opt_name_toks n name -> vars_toks v vars -> dirs_toks ds dirs -> set_toks b sels ->
  gp_operation k p ((n ++ v ++ ds ++ b) ++ r) = Some (DOp (OpNamed k p name vars dirs sels), r).
Proof.
  intros N V D B. rewrite <- !app_assoc.
  assert (Bb : forall qs, ~ In GOpenCu qs -> avoid qs (b ++ r)).
  { intros qs H. destruct (set_headed _ _ B) as (q & y & ->). exact H. }
  assert (Db : avoid [GOpen] (ds ++ b ++ r)).
  { eapply avoid_app; [eapply dirs_headed; eauto|cbn; intuition discriminate|]. apply Bb. cbn. intuition discriminate. }
  assert (R : gp_vars (v ++ ds ++ b ++ r) = Some (vars, ds ++ b ++ r)) by (apply vars_complete; auto).
  assert (C : match n ++ v ++ ds ++ b ++ r with (_, GName n) :: r => (Some n, r) | _ => (None, n ++ v ++ ds ++ b ++ r) end = (name, v ++ ds ++ b ++ r)).
  { destruct N as [|q n]; [|reflexivity]. cbn [app].
    assert (H : forall q m z, v ++ ds ++ b ++ r <> (q, GName m) :: z).
    { intros q m z. destruct (vars_headed _ _ V) as [->|(q1 & y1 & ->)]; [|cbn; congruence]. destruct (dirs_headed _ _ D) as [->|(q1 & y1 & ->)]; [|cbn; congruence].
      destruct (set_headed _ _ B) as (q1 & y1 & ->). cbn. congruence. }
    destruct (v ++ ds ++ b ++ r) as [|[q [|m| | |]] z]; auto. exfalso. eapply H. reflexivity. }
  unfold gp_operation. rewrite C, R. rewrite dirs_complete with (l := dirs); auto; [|apply Bb; cbn; intuition discriminate].
  rewrite set_complete with (l := sels); auto.
Qed.
Lemma definition_sound ts d r : gp_definition ts = Some (d, r) -> exists x, ts = x ++ r /\ def_toks x d.
Proof.
  unfold gp_definition. intros E. destruct ts as [|[p [q|w| | |]] ts]; try discriminate.
  - destruct q; try discriminate. match type of E with context [gp_set ?a] => destruct (gp_set a) as [[sels r0]|] eqn:G end; [|discriminate].
    injection E as <- <-. destruct (set_sound _ _ _ G) as (x & Ex & S). exists x. split; auto.
    destruct (set_headed _ _ S) as (q & y & ->). injection Ex as <- _. econstructor; eauto.
  - assert (O : forall k, w = keyword k -> gp_operation k p ts = Some (d, r) -> exists x, (p, GName w) :: ts = x ++ r /\ def_toks x d).
    { intros k -> H. destruct (operation_sound _ _ _ _ _ H) as (n & name & v & vars & ds & dirs & b & sels & -> & N & V & D & B & ->).
      exists ((p, GName (keyword k)) :: n ++ v ++ ds ++ b). split; [reflexivity|]. constructor; auto. }
    destruct (String.eqb w "query") eqn:E1; [apply String.eqb_eq in E1; apply (O KQuery); auto|].
    destruct (String.eqb w "mutation") eqn:E2; [apply String.eqb_eq in E2; apply (O KMutation); auto|].
    destruct (String.eqb w "subscription") eqn:E3; [apply String.eqb_eq in E3; apply (O KSubscription); auto|].
    destruct (String.eqb w "fragment") eqn:E4; [|discriminate]. apply String.eqb_eq in E4. subst.
    unfold gp_fragment in E. destruct ts as [|[p1 [|n| | |]] [|[p2 [|on| | |]] [|[p3 [|c| | |]] ts]]]; try discriminate.
    destruct (String.eqb on "on") eqn:On; [|discriminate]. apply String.eqb_eq in On. subst.
    destruct (gp_dirs ts) as [[ds r1]|] eqn:Gd; [|discriminate]. destruct (gp_set r1) as [[sels r2]|] eqn:Gs; [|discriminate]. injection E as <- <-.
    destruct (dirs_sound _ _ _ Gd) as (x & -> & D & _). destruct (set_sound _ _ _ Gs) as (b & -> & B).
    eexists ((p, GName "fragment") :: (p1, GName n) :: (p2, GName "on") :: (p3, GName c) :: x ++ b).
    split; [cbn; rewrite <- app_assoc; reflexivity|]. constructor; auto.
Qed.
Lemma definition_complete x d r : def_toks x d -> gp_definition (x ++ r) = Some (d, r).
Proof.
  intros D. destruct D as [p ts y sels S E|k p n name v vars ds dirs b sels N V D B|p p1 n p2 p3 c ds dirs b sels D B].
  - pose proof (set_complete _ _ r S) as C. subst. cbn [app gp_definition] in *. rewrite C. reflexivity.
  - cbn [app gp_definition]. pose proof (operation_complete k p n name v vars ds dirs b sels r N V D B) as C. destruct k; exact C.
  - cbn [app gp_definition]. cbn [String.eqb]. unfold gp_fragment.
    change (gp_fragment p ((p1, GName n) :: (p2, GName "on") :: (p3, GName c) :: (ds ++ b) ++ r) = Some (DFrag {| fr_pos := p; fr_name := n; fr_cond := c; fr_dirs := dirs; fr_sels := sels |}, r)).
    unfold gp_fragment. rewrite String.eqb_refl, <- app_assoc.
    rewrite dirs_complete with (l := dirs); auto.
    + rewrite set_complete with (l := sels); auto.
    + destruct (set_headed _ _ B) as (q & y & ->). cbn. intuition discriminate.
Qed.
Lemma def_first x d : def_toks x d -> exists t y, x = t :: y.
Proof. intros D. destruct D; subst; eauto. Qed.
(** ** Documents *)
Theorem document_iff ts d : gp_document ts = Some d <-> d <> [] /\ series def_toks ts d.
Proof.
  unfold gp_document. split.
  - intros E. match type of E with context [many ?a ?b ?c ?d] => destruct (many a b c d) as [[[|a' l'] [|t r1]]|] eqn:M end; try discriminate.
    injection E as <-. split; [discriminate|]. destruct (many_sound _ _ _ definition_sound _ _ _ _ M) as (x & -> & S & _). rewrite app_nil_r. exact S.
  - intros [N S].
    match goal with |- context [many ?f ?b ?c ?z] => assert (M : many f b c (z ++ []) = Some (d, [])) end.
    { eapply (many_complete _ gp_definition def_toks (fun _ => True)) with (l := d); auto.
      - intros x b D. apply def_first in D. destruct D as (t & y & ->). eauto.
      - intros x b r D _. apply definition_complete. auto.
      - reflexivity. }
    rewrite app_nil_r in M. rewrite M. destruct d; [congruence|reflexivity].
Qed.
