(** Lemmas about SpecGtext.v: only the tokens matter; names of documents are names of GraphQL. *)
From Verif Require Import GparseFacts SpecGtext SpecName.
From Coq Require Import Lia.

Scheme sel_toks_mind := Minimality for sel_toks Sort Prop
  with set_toks_mind := Minimality for set_toks Sort Prop
  with opt_set_toks_mind := Minimality for opt_set_toks Sort Prop
  with sels_toks_mind := Minimality for sels_toks Sort Prop.
Combined Scheme sel_toks_minds from sel_toks_mind, set_toks_mind, opt_set_toks_mind, sels_toks_mind.

(** ** Other positions *)
Definition follows {A} (I : list ptok -> A -> Prop) (erase : A -> A) (x : list ptok) (a : A) : Prop :=
  forall y, bare y = bare x -> exists b, I y b /\ erase b = erase a.
Lemma bare_two y a b : bare y = bare (a ++ b) -> exists y1 y2, y = y1 ++ y2 /\ bare y1 = bare a /\ bare y2 = bare b.
Proof. rewrite bare_app. apply bare_split. Qed.
Lemma bare_first y p t x : bare y = bare ((p, t) :: x) -> exists q z, y = (q, t) :: z /\ bare z = bare x.
Proof. rewrite bare_cons. apply bare_head. Qed.
Lemma bare_last y p t : bare y = bare [(p, t)] -> exists q, y = [(q, t)].
Proof. intros E. apply bare_first in E. destruct E as (q & z & -> & E). apply bare_nil in E. subst. eauto. Qed.
Lemma series_follows {A} (I : list ptok -> A -> Prop) erase : (forall x a, I x a -> follows I erase x a) ->
  forall x l, series I x l -> follows (series I) (List.map erase) x l.
Proof.
  intros H x l S. induction S as [|x a x' l Ix S IH]; intros y E.
  - apply bare_nil in E. subst. exists []. split; [constructor|auto].
  - apply bare_two in E. destruct E as (y1 & y2 & -> & E1 & E2). destruct (H _ _ Ix _ E1) as (b & B & Eb). destruct (IH _ E2) as (l' & L & El).
    exists (b :: l'). split; [constructor; auto|cbn; congruence].
Qed.
Lemma series_same {A} (I : list ptok -> A -> Prop) : (forall x a, I x a -> forall y, bare y = bare x -> I y a) ->
  forall x l, series I x l -> forall y, bare y = bare x -> series I y l.
Proof.
  intros H x l S y E. destruct (series_follows I (fun a => a)) with (x := x) (l := l) (y := y) as (l' & L & El); auto.
  - intros z a Iz w Ew. exists a. split; auto. eapply H; eauto.
  - rewrite !map_id in El. subst. auto.
Qed.
Lemma arg_same x a : arg_toks x a -> forall y, bare y = bare x -> arg_toks y a.
Proof.
  intros A y E. destruct A as [p n p' v V]. apply bare_first in E. destruct E as (q & z & -> & E). apply bare_first in E. destruct E as (q' & z' & -> & E).
  rewrite <- E. constructor. rewrite E. auto.
Qed.
Lemma args_same x l : args_toks x l -> forall y, bare y = bare x -> args_toks y l.
Proof.
  intros A y E. destruct A as [|p ts a l p' S].
  - apply bare_nil in E. subst. constructor.
  - apply bare_first in E. destruct E as (q & z & -> & E). apply bare_two in E. destruct E as (y1 & y2 & -> & E1 & E2). apply bare_last in E2. destruct E2 as (q' & ->).
    constructor. eapply series_same; eauto. apply arg_same.
Qed.
Lemma dirs_same x l : dirs_toks x l -> forall y, bare y = bare x -> dirs_toks y l.
Proof.
  apply series_same. intros z a D y E. destruct D as [p p' n ts l' A]. apply bare_first in E. destruct E as (q & w & -> & E). apply bare_first in E. destruct E as (q' & w' & -> & E).
  constructor. eapply args_same; eauto.
Qed.
Ltac two E y1 y2 E1 E2 := apply bare_two in E; destruct E as (y1 & y2 & -> & E1 & E2).
Ltac front E q := apply bare_first in E; destruct E as (q & ? & -> & E).
Lemma sel_follows :
  (forall x s, sel_toks x s -> follows sel_toks unplaced x s) /\
  (forall x l, set_toks x l -> follows set_toks (List.map unplaced) x l) /\
  (forall x l, opt_set_toks x l -> follows opt_set_toks (List.map unplaced) x l) /\
  (forall x l, sels_toks x l -> follows sels_toks (List.map unplaced) x l).
Proof.
  apply sel_toks_minds.
  - intros p n a args d dirs b sub A D _ B y E. front E q. two E y1 y' E1 E. two E y2 y3 E2 E3. destruct (B _ E3) as (sub' & B' & Es).
    eexists. split; [apply st_field; [eapply args_same|eapply dirs_same|]; eauto|]. cbn. congruence.
  - intros p n p1 p2 m a args d dirs b sub A D _ B y E. front E q. front E q1. front E q2. two E y1 y' E1 E. two E y2 y3 E2 E3. destruct (B _ E3) as (sub' & B' & Es).
    eexists. split; [apply st_alias; [eapply args_same|eapply dirs_same|]; eauto|]. cbn. congruence.
  - intros p0 p n d dirs N D y E. front E q. front E q1. eexists. split; [apply st_spread; auto; eapply dirs_same; eauto|]. reflexivity.
  - intros p0 p p1 c d dirs b sub D _ B y E. front E q. front E q1. front E q2. two E y1 y2 E1 E2. destruct (B _ E2) as (sub' & B' & Es).
    eexists. split; [apply st_on; [eapply dirs_same|]; eauto|]. cbn. congruence.
  - intros p0 p t r d dirs b sub D _ B F y E. front E q. two E y1 y2 E1 E2. destruct (B _ E2) as (sub' & B' & Es).
    assert (G : bare (y1 ++ y2) = bare ((p, t) :: r)) by (rewrite <- F, !bare_app; congruence).
    apply bare_first in G. destruct G as (q1 & z & G & _).
    eexists. split; [eapply st_inline; [eapply dirs_same| |]; eauto|]. cbn. congruence.
  - intros p ts s l p' _ S y E. front E q. two E y1 y2 E1 E2. apply bare_last in E2. destruct E2 as (q' & ->). destruct (S _ E1) as (l' & L & El).
    destruct l' as [|s' l']; [discriminate|]. eexists. split; [constructor; eauto|auto].
  - intros y E. apply bare_nil in E. subst. exists []. split; [constructor|auto].
  - intros ts l _ S y E. destruct (S _ E) as (l' & L & El). exists l'. split; [constructor; auto|auto].
  - intros y E. apply bare_nil in E. subst. exists []. split; [constructor|auto].
  - intros ts s ts' l _ S1 _ S2 y E. two E y1 y2 E1 E2. destruct (S1 _ E1) as (s' & S' & Es). destruct (S2 _ E2) as (l' & L & El).
    exists (s' :: l'). split; [constructor; auto|cbn; congruence].
Qed.
Lemma var_follows x v : var_toks x v -> follows var_toks unplaced_var x v.
Proof.
  intros V y E. destruct V as [p p1 n p2 ts t T|p p1 n p2 ts t p3 v T V]; front E q; front E q1; front E q2.
  - eexists. split; [constructor; rewrite E; eauto|reflexivity].
  - two E y1 y2 E1 E2. front E2 q3. eexists. split; [constructor; [rewrite E1|rewrite E2]; eauto|]. unfold unplaced_var. cbn. rewrite E2. reflexivity.
Qed.
Lemma vars_follows x l : vars_toks x l -> follows vars_toks (List.map unplaced_var) x l.
Proof.
  intros V y E. destruct V as [|p ts a l p' S].
  - apply bare_nil in E. subst. exists []. split; [constructor|auto].
  - front E q. two E y1 y2 E1 E2. apply bare_last in E2. destruct E2 as (q' & ->).
    destruct (series_follows _ _ var_follows _ _ S _ E1) as (l' & L & El). destruct l' as [|a' l']; [discriminate|]. eexists. split; [constructor; eauto|auto].
Qed.
Lemma def_follows x d : def_toks x d -> follows def_toks unplaced_def x d.
Proof.
  intros D y E. destruct D as [p ts r sels S F|k p n name v vars ds dirs b sels N V D B|p p1 n p2 p3 c ds dirs b sels D B].
  - destruct (proj1 (proj2 sel_follows) _ _ S _ E) as (l' & L & El). subst. front E q. eexists. split; [eapply df_short; eauto|]. cbn. congruence.
  - front E q. two E y1 y' E1 E. two E y2 y'' E2 E. two E y3 y4 E3 E4.
    assert (N' : opt_name_toks y1 name).
    { destruct N as [|pn n]; [apply bare_nil in E1; subst; constructor|]. apply bare_last in E1. destruct E1 as (q' & ->). constructor. }
    destruct (vars_follows _ _ V _ E2) as (vars' & V' & Ev). destruct (proj1 (proj2 sel_follows) _ _ B _ E4) as (l' & L & El).
    eexists. split; [apply df_operation; [eauto|eauto|eapply dirs_same; eauto|eauto]|]. cbn. congruence.
  - front E q. front E q1. front E q2. front E q3. two E y1 y2 E1 E2. destruct (proj1 (proj2 sel_follows) _ _ B _ E2) as (l' & L & El).
    eexists. split; [apply df_fragment; [eapply dirs_same; eauto|eauto]|]. cbn. congruence.
Qed.
Lemma doc_follows x d : series def_toks x d -> follows (series def_toks) unplaced_doc x d.
Proof. apply series_follows. apply def_follows. Qed.

Lemma filter_bare (f : ptok -> bool) : (forall p q t, f (p, t) = f (q, t)) -> forall a b, bare a = bare b -> List.length (List.filter f a) = List.length (List.filter f b).
Proof.
  intros H. induction a as [|[p t] a IH]; intros b E.
  - symmetry in E. apply bare_nil in E. subst. auto.
  - symmetry in E. apply bare_first in E. destruct E as (q & z & -> & E). cbn. rewrite (H p q). destruct (f (q, t)); cbn; rewrite (IH z); auto.
Qed.
Lemma open_bare n x y : bare y = bare x -> at_most_open n x -> at_most_open n y.
Proof.
  intros E A a b ->. symmetry in E. apply bare_two in E. destruct E as (x1 & x2 & -> & E1 & E2). specialize (A x1 x2 eq_refl).
  rewrite (filter_bare opens (fun _ _ _ => eq_refl) a x1), (filter_bare closes (fun _ _ _ => eq_refl) a x1); auto.
Qed.

(** ** Names *)
Lemma begin_letter c : name_begin c <-> letter c = true.
Proof. unfold name_begin, letter. rewrite !orb_true_iff, !andb_true_iff, !Nat.leb_le, Nat.eqb_eq. lia. Qed.
Lemma part_letter c : name_part c <-> letter_or_digit c = true.
Proof. unfold name_part, letter_or_digit. rewrite orb_true_iff, begin_letter, andb_true_iff, !Nat.leb_le. reflexivity. Qed.
Lemma all_parts s : all name_part s -> all_chars letter_or_digit s = true.
Proof. induction s as [|c s IH]; cbn; auto. intros [A B]. apply part_letter in A. rewrite A, IH; auto. Qed.
Definition names_good (ts : list ptok) : Prop := forall p n, In (p, GName n) ts -> gname n.
Lemma tokens_names ck p text ts : tokens_of ck p text ts -> names_good ts.
Proof.
  intros T. induction T as [p w G|p w q t x q' r ts G W S T IH]; intros p0 n I; [destruct I|].
  destruct I as [E|I]; [|eapply IH; eauto]. injection E as <- ->. inversion W as [|c m r0 C A F E| | |]; subst. cbn.
  rewrite <- begin_letter. split; auto. apply all_parts. auto.
Qed.
Lemma good_app a b : names_good (a ++ b) <-> names_good a /\ names_good b.
Proof.
  unfold names_good. split.
  - intros H. split; intros p n I; eapply H; apply in_or_app; eauto.
  - intros [A B] p n I. apply in_app_or in I. destruct I; eauto.
Qed.
Lemma good_cons p t b : names_good ((p, t) :: b) <-> (forall n, t = GName n -> gname n) /\ names_good b.
Proof.
  unfold names_good. split.
  - intros H. split; [intros n ->; eapply H; left; eauto|intros q n I; eapply H; right; eauto].
  - intros [A B] q n [I|I]; [injection I as _ ->; auto|eauto].
Qed.
Lemma good_names_here p n b : names_good ((p, GName n) :: b) -> gname n /\ names_good b.
Proof. rewrite good_cons. intros [A B]. split; auto. Qed.
Lemma selects_either s l k : selects [] (s :: l) k -> selects [] [s] k \/ selects [] l k.
Proof.
  intros S. inversion S as [p al n a d sub sels I|p al n a d sub sels k' I M|p c d sub sels k' I M|p n d f sels k' I G M]; subst.
  - destruct I as [->|I]; [left|right]; eapply mn_here; [left; eauto|eauto].
  - destruct I as [->|I]; [left|right]; (eapply mn_below; [|eauto]); [left; eauto|eauto].
  - destruct I as [->|I]; [left|right]; (eapply mn_inline; [|eauto]); [left; eauto|eauto].
  - discriminate.
Qed.
Lemma selects_field p al n a d sub k : selects [] [SField p al n a d sub] k -> k = response_key al n \/ selects [] sub k.
Proof.
  intros S. inversion S as [? ? ? ? ? ? ? I|? ? ? ? ? ? ? ? I M|? ? ? ? ? ? I M|? ? ? ? ? ? I G M]; subst; try (destruct I as [E|[]]; inversion E; subst; auto).
Qed.
Lemma selects_inline p c d sub k : selects [] [SInline p c d sub] k -> selects [] sub k.
Proof.
  intros S. inversion S as [? ? ? ? ? ? ? I|? ? ? ? ? ? ? ? I M|? ? ? ? ? ? I M|? ? ? ? ? ? I G M]; subst; try (destruct I as [E|[]]; inversion E; subst; auto).
Qed.
Lemma selects_spread p n d k : ~ selects [] [SSpread p n d] k.
Proof.
  intros S. inversion S as [? ? ? ? ? ? ? I|? ? ? ? ? ? ? ? I M|? ? ? ? ? ? I M|? ? ? ? ? ? I G M]; subst; try (destruct I as [E|[]]; discriminate).
Qed.
Definition keys_good (l : list selection) : Prop := forall k, selects [] l k -> gname k.
Lemma sel_keys :
  (forall x s, sel_toks x s -> names_good x -> keys_good [s]) /\
  (forall x l, set_toks x l -> names_good x -> keys_good l) /\
  (forall x l, opt_set_toks x l -> names_good x -> keys_good l) /\
  (forall x l, sels_toks x l -> names_good x -> keys_good l).
Proof.
  assert (Nil : keys_good []).
  { intros k S. inversion S as [? ? ? ? ? ? ? I|? ? ? ? ? ? ? ? I M|? ? ? ? ? ? I M|? ? ? ? ? ? I G M]; destruct I. }
  apply sel_toks_minds.
  - intros p n a args d dirs b sub A D _ B G k S. apply good_names_here in G. destruct G as [G1 G]. rewrite !good_app in G. apply selects_field in S.
    destruct S as [->|S]; [exact G1|apply B; tauto].
  - intros p n p1 p2 m a args d dirs b sub A D _ B G k S. apply good_names_here in G. destruct G as [G1 G]. rewrite !good_cons, !good_app in G. apply selects_field in S.
    destruct S as [->|S]; [exact G1|apply B; tauto].
  - intros p0 p n d dirs N D G k S. apply selects_spread in S. destruct S.
  - intros p0 p p1 c d dirs b sub D _ B G k S. rewrite !good_cons, good_app in G. apply selects_inline in S. apply B; tauto.
  - intros p0 p t r d dirs b sub D _ B F G k S. rewrite !good_cons, good_app in G. apply selects_inline in S. apply B; tauto.
  - intros p ts s l p' _ S G. rewrite good_cons, good_app in G. apply S. tauto.
  - auto.
  - auto.
  - auto.
  - intros ts s ts' l _ S1 _ S2 G k S. rewrite good_app in G. apply selects_either in S. destruct S as [S|S]; [apply S1|apply S2]; tauto.
Qed.
Lemma var_name x v : var_toks x v -> names_good x -> gname (vd_name v).
Proof. intros V G. destruct V; rewrite !good_cons in G; cbn; destruct G as (_ & G & _); apply G; reflexivity. Qed.
Lemma vars_names x l v : vars_toks x l -> names_good x -> In v l -> gname (vd_name v).
Proof.
  intros V G I. destruct V as [|p ts a l p' S]; [destruct I|]. rewrite good_cons, good_app in G. destruct G as (_ & G & _). clear -S G I.
  revert I. generalize (a :: l) S. clear S. intros l' S I. induction S as [|x b y l' X S IH]; [destruct I|]. rewrite good_app in G.
  destruct I as [<-|I]; [eapply var_name; [exact X|tauto]|apply IH; tauto].
Qed.
Lemma series_in {A} (I : list ptok -> A -> Prop) x l a : series I x l -> In a l -> exists y, I y a /\ forall t, In t y -> In t x.
Proof.
  intros S H. induction S as [|y b z l Y S IH]; [destruct H|]. destruct H as [<-|H].
  - exists y. split; auto. intros t T. apply in_or_app. auto.
  - destruct (IH H) as (w & W & J). exists w. split; auto. intros t T. apply in_or_app. auto.
Qed.
