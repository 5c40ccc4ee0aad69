(** Lemmas for C94: schemas, collected fields and declarations without documentation. *)
From Verif Require Export SpecDocs.
From Verif Require Import Rewrite PropC18 PropC48 ProjectFacts LoadFacts GrowFacts PlanFacts RenderFacts BaseFacts GlobalRead.

(** ** Schemas without documentation *)
Definition nodoc_field (f : sfield) : sfield := {| sf_name := sf_name f; sf_doc := None; sf_type := sf_type f; sf_deprecated := false |}.
Definition nodoc_fields (m : fields_lookup) : fields_lookup := List.map (fun x => (fst x, nodoc_field (snd x))) m.
Definition nodoc_def (d : tdef) : tdef :=
  match d with
  | TObject fs => TObject (nodoc_fields fs)
  | TEnum vs => TEnum vs
  | TScalar n => TScalar n
  | TInterface n fs ps => TInterface n (nodoc_fields fs) ps
  | TInputObject n fs => TInputObject n (nodoc_fields fs)
  | TUnion n ps fs => TUnion n ps (nodoc_fields fs)
  end.
Definition nodoc_type (t : stype) : stype := {| st_doc := None; st_def := nodoc_def (st_def t) |}.
Definition nodoc (s : schema) : schema := List.map (fun x => (fst x, nodoc_type (snd x))) s.

Lemma aget_mapped {B C} (g : B -> C) k (m : amap string B) : aget k (List.map (fun x => (fst x, g (snd x))) m) = option_map g (aget k m).
Proof. induction m as [|[k' v] m IH]; [reflexivity|]. cbn [List.map fst snd aget]. destruct (eqb k k'); auto. Qed.
Lemma aset_mapped {B C} (g : B -> C) k v (m : amap string B) :
  aset k (g v) (List.map (fun x => (fst x, g (snd x))) m) = List.map (fun x => (fst x, g (snd x))) (aset k v m).
Proof. induction m as [|[k' v'] m IH]; [reflexivity|]. cbn [List.map fst snd aset]. destruct (eqb k k'); cbn [List.map fst snd]; [reflexivity|rewrite IH; reflexivity]. Qed.
Lemma nodoc_get s n : get_type (nodoc s) n = option_map nodoc_type (get_type s n).
Proof. apply (aget_mapped nodoc_type). Qed.
Lemma nodoc_lookup m n : aget n (nodoc_fields m) = option_map nodoc_field (aget n m).
Proof. apply (aget_mapped nodoc_field). Qed.

(** *** Reading *)
Definition res_of {E A B} (g : A -> B) (r : res E A) : res E B := match r with Ok a => Ok (g a) | Err e => Err e end.
Lemma bare_field_read j : field_of_json (bare_jfield j) = res_of nodoc_field (field_of_json j).
Proof. unfold field_of_json. cbn [bare_jfield jf_type jf_name jf_description jf_deprecated]. destruct (ftype_of_json (jf_type j)); reflexivity. Qed.
Lemma bare_insert fs : forall m, insert_fields (List.map bare_jfield fs) (nodoc_fields m) = res_of nodoc_fields (insert_fields fs m).
Proof.
  induction fs as [|j fs IH]; intros m; [reflexivity|]. cbn [List.map insert_fields]. rewrite bare_field_read. destruct (field_of_json j) as [f|]; [|reflexivity]. cbn [res_of bare_jfield jf_name].
  unfold nodoc_fields at 1. rewrite (aset_mapped nodoc_field). apply IH.
Qed.
Lemma bare_fields fs b : get_fields_for_complex (List.map bare_jfield fs) b = res_of nodoc_fields (get_fields_for_complex fs b).
Proof. unfold get_fields_for_complex. destruct b; [exact (bare_insert fs [("__typename", typename_field)])|exact (bare_insert fs [])]. Qed.
Lemma bare_type_read j : type_of_json (bare_jtype j) = res_of nodoc_type (type_of_json j).
Proof.
  unfold type_of_json. cbn [bare_jtype jt_kind jt_name jt_description jt_possible_types jt_input_fields jt_fields jt_enum_values].
  destruct (String.eqb (jt_kind j) "OBJECT").
  { destruct (jt_fields j) as [fs|]; [|reflexivity]. cbn [option_map]. rewrite bare_fields. destruct (get_fields_for_complex fs true); reflexivity. }
  destruct (String.eqb (jt_kind j) "ENUM"); [destruct (jt_enum_values j); reflexivity|].
  destruct (String.eqb (jt_kind j) "SCALAR"); [reflexivity|].
  destruct (String.eqb (jt_kind j) "INTERFACE").
  { destruct (jt_fields j) as [fs|]; [|reflexivity]. cbn [option_map]. destruct (jt_possible_types j); [|reflexivity]. rewrite bare_fields. destruct (get_fields_for_complex fs true); reflexivity. }
  destruct (String.eqb (jt_kind j) "INPUT_OBJECT").
  { destruct (jt_input_fields j) as [fs|]; [|reflexivity]. cbn [option_map]. rewrite bare_fields. destruct (get_fields_for_complex fs false); reflexivity. }
  destruct (String.eqb (jt_kind j) "UNION"); [destruct (jt_possible_types j); reflexivity|reflexivity].
Qed.
Lemma bare_load js : forall m, load_types (List.map bare_jtype js) (nodoc m) = res_of nodoc (load_types js m).
Proof.
  induction js as [|j js IH]; intros m; [reflexivity|]. cbn [List.map load_types]. rewrite bare_type_read. destruct (type_of_json j) as [t|]; [|reflexivity]. cbn [res_of bare_jtype jt_name].
  unfold nodoc at 1. rewrite (aset_mapped nodoc_type). apply IH.
Qed.
Lemma redescribed_load js js' : redescribed js js' -> res_of nodoc (load_schema js) = res_of nodoc (load_schema js').
Proof. intros R. unfold load_schema. rewrite <- !bare_load. cbn [nodoc List.map]. rewrite R. reflexivity. Qed.

(** *** What is asked of a schema *)
Section Plain.
  Variable s : schema.
  Lemma nodoc_composite c : composite (nodoc s) c <-> composite s c.
  Proof.
    unfold composite. rewrite nodoc_get. split; intros (t & E & K).
    - destruct (get_type s c) as [u|]; [|discriminate E]. injection E as <-. exists u. split; auto. cbn in K. destruct (st_def u); auto.
    - rewrite E. eexists. split; [reflexivity|]. cbn. destruct (st_def t); auto.
  Qed.
  Lemma nodoc_possible c T : possible (nodoc s) c T <-> possible s c T.
  Proof.
    unfold possible. rewrite nodoc_get. split; intros (t & E & K).
    - destruct (get_type s c) as [u|]; [|discriminate E]. injection E as <-. exists u. split; auto. cbn in K. destruct (st_def u); auto.
    - rewrite E. eexists. split; [reflexivity|]. cbn. destruct (st_def t); auto.
  Qed.
  Lemma nodoc_field_of c n f : field_of s c n f -> field_of (nodoc s) c n (nodoc_field f).
  Proof.
    intros (t & E & K). exists (nodoc_type t). rewrite nodoc_get, E. split; [reflexivity|]. cbn. destruct (st_def t); try contradiction; cbn; rewrite nodoc_lookup, K; reflexivity.
  Qed.
  Lemma nodoc_field_back c n g : field_of (nodoc s) c n g -> exists f, field_of s c n f /\ g = nodoc_field f.
  Proof.
    intros (t & E & K). rewrite nodoc_get in E. destruct (get_type s c) as [u|] eqn:G; [|discriminate E]. injection E as <-. cbn in K.
    assert (X : exists fs, aget n (nodoc_fields fs) = Some g /\ (forall f, aget n fs = Some f -> field_of s c n f)).
    { destruct (st_def u) eqn:D; cbn in K; try contradiction; eexists; (split; [exact K|]); intros f A; exists u; rewrite D; auto. }
    destruct X as (fs & A & F). rewrite nodoc_lookup in A. destruct (aget n fs) as [f|]; [|discriminate A]. injection A as <-. eauto.
  Qed.
  Lemma nodoc_kind f : kind_agrees (nodoc s) (nodoc_field f) <-> kind_agrees s f.
  Proof.
    unfold kind_agrees. cbn [nodoc_field sf_type]. rewrite nodoc_get. destruct (ft_def (sf_type f)); try (rewrite nodoc_composite; tauto); try tauto;
      (destruct (get_type s (ft_name (sf_type f))) as [t|]; cbn [option_map nodoc_type st_def];
       [destruct (st_def t); cbn [nodoc_def]; split; intros H; decompose [ex] H; try discriminate; repeat eexists|
        split; intros H; decompose [ex] H; discriminate]).
  Qed.
  Lemma nodoc_consistent : consistent (nodoc s) <-> consistent s.
  Proof.
    split; intros C c n f F.
    - apply nodoc_kind. apply (C c n). apply nodoc_field_of. exact F.
    - destruct (nodoc_field_back _ _ _ F) as (g & G & ->). apply nodoc_kind. apply (C c n). exact G.
  Qed.
  Lemma nodoc_inhabited : inhabited_types (nodoc s) <-> inhabited_types s.
  Proof.
    split; intros H c n f F Cp.
    - destruct (H c n (nodoc_field f) (nodoc_field_of _ _ _ F)) as (T & P); [apply nodoc_composite; exact Cp|]. exists T. apply nodoc_possible. exact P.
    - destruct (nodoc_field_back _ _ _ F) as (g & G & ->). destruct (H c n g G) as (T & P); [apply nodoc_composite in Cp; exact Cp|]. exists T. apply nodoc_possible. exact P.
  Qed.
  Lemma nodoc_proper : proper_types (nodoc s) <-> proper_types s.
  Proof. split; intros H P T Po; apply (H P); apply nodoc_possible; exact Po. Qed.
  Lemma nodoc_input_field f : input_field_ok (nodoc s) (nodoc_field f) <-> input_field_ok s f.
  Proof.
    unfold input_field_ok. cbn [nodoc_field sf_type]. rewrite nodoc_get. destruct (ft_def (sf_type f)); try tauto;
      (destruct (get_type s (ft_name (sf_type f))) as [t|]; cbn [option_map nodoc_type st_def];
       [destruct (st_def t); cbn [nodoc_def]; split; intros H; decompose [ex] H; try discriminate; repeat eexists|
        split; intros H; decompose [ex] H; discriminate]).
  Qed.
  Lemma nodoc_in fn g fs : In (fn, g) (nodoc_fields fs) <-> exists f, In (fn, f) fs /\ g = nodoc_field f.
  Proof.
    unfold nodoc_fields. rewrite in_map_iff. split.
    - intros ([k f] & E & I). cbn in E. injection E as <- <-. eauto.
    - intros (f & I & ->). exists (fn, f). auto.
  Qed.
  Lemma nodoc_keys fs : List.map fst (nodoc_fields fs) = List.map fst fs.
  Proof. unfold nodoc_fields. rewrite map_map. reflexivity. Qed.
  Lemma nodoc_inputs : inputs_consistent (nodoc s) <-> inputs_consistent s.
  Proof.
    split; intros C n t nm fs G E.
    - destruct (C n (nodoc_type t) nm (nodoc_fields fs)) as (-> & N & K); [rewrite nodoc_get, G; reflexivity|cbn; rewrite E; reflexivity|].
      rewrite nodoc_keys in N. split; [reflexivity|]. split; [exact N|]. intros fn f I. apply nodoc_input_field. apply (K fn). apply nodoc_in. eauto.
    - rewrite nodoc_get in G. destruct (get_type s n) as [u|] eqn:Gu; [|discriminate G]. injection G as <-. cbn in E. destruct (st_def u) as [| | | |nm0 fs0|] eqn:D; try discriminate E.
      cbn in E. injection E as <- <-. destruct (C n u nm0 fs0 Gu D) as (-> & N & K). rewrite nodoc_keys. split; [reflexivity|]. split; [exact N|].
      intros fn f I. apply nodoc_in in I. destruct I as (g & I & ->). apply nodoc_input_field. exact (K fn g I).
  Qed.
  Lemma nodoc_global n : global_type (nodoc s) n <-> global_type s n.
  Proof.
    unfold global_type. rewrite nodoc_get. split; intros (t & E & K).
    - destruct (get_type s n) as [u|]; [|discriminate E]. injection E as <-. exists u. split; auto. cbn in K. destruct (st_def u); auto.
    - rewrite E. eexists. split; [reflexivity|]. cbn. destruct (st_def t); auto.
  Qed.
  Lemma nodoc_refers n m : refers (nodoc s) n m <-> refers s n m.
  Proof.
    unfold refers. rewrite nodoc_get. split.
    - intros (t & E & nm & fs & fn & f & D & M). destruct (get_type s n) as [u|]; [|discriminate E]. injection E as <-. exists u. split; auto. cbn in D.
      destruct (st_def u) as [| | | |nm0 fs0|] eqn:Du; try discriminate D. cbn in D. injection D as <- <-. destruct M as [M1 M2].
      apply nodoc_in in M1. destruct M1 as (g & I & ->). exists nm0, fs0, fn, g. auto.
    - intros (t & E & nm & fs & fn & f & D & M1 & M2). rewrite E. eexists. split; [reflexivity|]. exists nm, (nodoc_fields fs), fn, (nodoc_field f). cbn [nodoc_type st_def]. rewrite D.
      split; [reflexivity|]. split; [apply nodoc_in; eauto|exact M2].
  Qed.
  Lemma nodoc_leads n m : SpecGlobal.leads (nodoc s) n m <-> SpecGlobal.leads s n m.
  Proof.
    split; (induction 1 as [|n m k R _ IH]; [constructor|eapply SpecGlobal.leads_step; [apply nodoc_refers; exact R|exact IH]]).
  Qed.
  Lemma nodoc_ends n : wellfounded (nodoc s) n <-> wellfounded s n.
  Proof. unfold wellfounded. split; (induction 1 as [n _ IH]; constructor; intros m R; apply IH; apply nodoc_refers; exact R). Qed.

  (** *** Validity and what is collected *)
  Variable frags : amap string fragdef.
  Lemma nodoc_valid_to :
    (forall P x, valid_sel s frags P x -> valid_sel (nodoc s) frags P x) /\ (forall P l, valid_sels s frags P l -> valid_sels (nodoc s) frags P l).
  Proof.
    apply (valid_mutind s frags (fun P x _ => valid_sel (nodoc s) frags P x) (fun P l _ => valid_sels (nodoc s) frags P l)).
    - intros P p al n a d f F Nc. eapply valid_leaf; [apply nodoc_field_of; eauto|]. cbn. rewrite nodoc_composite. auto.
    - intros P p al n a d f sub F C Ne _ V. eapply valid_composite; [apply nodoc_field_of; eauto|cbn; apply nodoc_composite; auto|auto|auto].
    - intros. constructor; auto. apply nodoc_composite; auto.
    - intros. econstructor; eauto. apply nodoc_composite; auto.
    - constructor.
    - constructor; auto.
  Qed.
  Lemma nodoc_valid_back :
    (forall P x, valid_sel (nodoc s) frags P x -> valid_sel s frags P x) /\ (forall P l, valid_sels (nodoc s) frags P l -> valid_sels s frags P l).
  Proof.
    apply (valid_mutind (nodoc s) frags (fun P x _ => valid_sel s frags P x) (fun P l _ => valid_sels s frags P l)).
    - intros P p al n a d f F Nc. destruct (nodoc_field_back _ _ _ F) as (g & G & ->). eapply valid_leaf; [exact G|]. intros C. apply Nc. apply nodoc_composite. exact C.
    - intros P p al n a d f sub F C Ne _ V. destruct (nodoc_field_back _ _ _ F) as (g & G & ->). eapply valid_composite; [exact G|apply nodoc_composite in C; exact C|auto|auto].
    - intros. constructor; auto. apply nodoc_composite; auto.
    - intros. econstructor; eauto. apply nodoc_composite; auto.
    - constructor.
    - constructor; auto.
  Qed.
  Lemma nodoc_valid P l : valid_sels (nodoc s) frags P l <-> valid_sels s frags P l.
  Proof. split; [apply nodoc_valid_back|apply nodoc_valid_to]. Qed.
  Lemma nodoc_occ T P M k P' n ss : occ (nodoc s) frags T P M k P' n ss <-> occ s frags T P M k P' n ss.
  Proof.
    split.
    - induction 1 as [P M p al f a d sub I|P M p c d sub k P' f ss I Po _ IH|P M p name d fd k P' f ss I A Po _ IH].
      + econstructor; eauto.
      + eapply occ_inline; eauto. apply nodoc_possible. exact Po.
      + eapply occ_spread; eauto. apply nodoc_possible. exact Po.
    - induction 1 as [P M p al f a d sub I|P M p c d sub k P' f ss I Po _ IH|P M p name d fd k P' f ss I A Po _ IH].
      + econstructor; eauto.
      + eapply occ_inline; eauto. apply nodoc_possible. exact Po.
      + eapply occ_spread; eauto. apply nodoc_possible. exact Po.
  Qed.
  Lemma nodoc_focc T P (M M' : selset) k f ss : (forall x, M x <-> M' x) -> focc s frags T P M k f ss -> focc (nodoc s) frags T P M' k (nodoc_field f) ss.
  Proof. intros I (P' & n & X & F). exists P', n. split; [apply nodoc_occ; eapply occ_set; [|exact X]; apply I|apply nodoc_field_of; exact F]. Qed.
  Lemma nodoc_focc_back T P (M M' : selset) k g ss : (forall x, M x <-> M' x) -> focc (nodoc s) frags T P M' k g ss -> exists f, focc s frags T P M k f ss /\ g = nodoc_field f.
  Proof.
    intros I (P' & n & X & F). destruct (nodoc_field_back _ _ _ F) as (f & G & ->). exists f. split; auto. exists P', n. split; auto. apply nodoc_occ in X. eapply occ_set; [|exact X]. apply I.
  Qed.
  (** Occurrences of the same selections *)
  Definition same_occ (O O' : occset) : Prop :=
    (forall k f ss, O k f ss -> O' k (nodoc_field f) ss) /\ (forall k g ss, O' k g ss -> exists f, O k f ss /\ g = nodoc_field f).
  Lemma nodoc_same_occ T P (M M' : selset) : (forall x, M x <-> M' x) -> same_occ (focc s frags T P M) (focc (nodoc s) frags T P M').
  Proof. intros I. split; intros; [eapply nodoc_focc|eapply nodoc_focc_back]; eauto. Qed.
  Lemma same_merged O O' k typ : same_occ O O' -> forall x, merged O k typ x <-> merged O' k typ x.
  Proof.
    intros [A B] x. split.
    - intros (f & ss & X & E & I). exists (nodoc_field f), ss. split; auto.
    - intros (g & ss & X & E & I). destruct (B _ _ _ X) as (f & Y & ->). exists f, ss. auto.
  Qed.
End Plain.

(** *** Intermediate representations without documentation *)
Fixpoint undoc_f (f : irfield) : irfield := match f with IRField k _ _ l r t => IRField k None false l r (undoc_t t) end
with undoc_t (t : irtype) : irtype := match t with IComplex xs => IComplex (List.map undoc_c xs) | ITypeName => ITypeName | IEnum n => IEnum n | IScalar sc => IScalar sc end
with undoc_c (x : ircomplex) : ircomplex := match x with IRComplex n fs => IRComplex n (List.map undoc_f fs) end.

Lemma undoc_name x : irc_name (undoc_c x) = irc_name x.
Proof. destruct x. reflexivity. Qed.
Lemma undoc_prop f : irf_prop (undoc_f f) = irf_prop f.
Proof. destruct f. reflexivity. Qed.
Lemma sorted_mapped {A B} (key : A -> string) (key' : B -> string) (g : A -> B) l : (forall x, key' (g x) = key x) -> sorted_by key l -> sorted_by key' (List.map g l).
Proof.
  unfold sorted_by. intros E. induction 1 as [|x l S IH F]; cbn [List.map]; constructor; auto. rewrite Forall_map. eapply Forall_impl; [|exact F].
  intros y L. cbn. rewrite !E. exact L.
Qed.
Definition undoc_entry (e : string * sfield * irtype) : string * sfield * irtype := (fst (fst e), nodoc_field (snd (fst e)), undoc_t (snd e)).
Lemma nodoc_collected s frags :
  (forall f M t, ty_ok s frags f M t -> forall M' : selset, (forall x, M x <-> M' x) -> ty_ok (nodoc s) frags (nodoc_field f) M' (undoc_t t)) /\
  (forall P M cs, coll_ok s frags P M cs -> forall M' : selset, (forall x, M x <-> M' x) -> coll_ok (nodoc s) frags P M' (List.map undoc_c cs)) /\
  (forall O fs, fields_ok s frags O fs -> forall O' : occset, same_occ O O' -> fields_ok (nodoc s) frags O' (List.map undoc_f fs)).
Proof.
  apply collok_mutind.
  - intros f M D M' _. constructor; auto.
  - intros f M sc D M' _. constructor; auto.
  - intros f M D M' _. apply (tyok_enum (nodoc s) frags (nodoc_field f) M'). exact D.
  - intros f M cs D _ IH M' I. cbn [undoc_t]. apply (tyok_complex (nodoc s) frags (nodoc_field f) M'); auto.
  - intros P M cs So Nd Ps _ IH M' I.
    assert (En : List.map irc_name (List.map undoc_c cs) = List.map irc_name cs) by (rewrite map_map; apply map_ext; intros x; apply undoc_name).
    constructor.
    + eapply sorted_mapped; [|exact So]. apply undoc_name.
    + rewrite En. exact Nd.
    + intros T. rewrite En, Ps. symmetry. apply nodoc_possible.
    + intros T fs J. apply in_map_iff in J. destruct J as ([T' fs'] & E & J). cbn in E. injection E as <- <-. eapply IH; [exact J|]. apply nodoc_same_occ. exact I.
  - intros O es So Nd Fo _ IH Cv O' S.
    assert (Em : List.map undoc_f (List.map mk_irfield es) = List.map mk_irfield (List.map undoc_entry es)).
    { rewrite !map_map. apply map_ext. intros [[k f] t]. reflexivity. }
    rewrite Em. constructor.
    + eapply sorted_mapped; [|exact So]. intros [[k f] t]. reflexivity.
    + rewrite map_map. exact Nd.
    + intros k g t J. apply in_map_iff in J. destruct J as ([[k0 f0] t0] & E & J). unfold undoc_entry in E. cbn [fst snd] in E. injection E as <- <- <-. destruct (Fo _ _ _ J) as (ss & X). exists ss. apply S. exact X.
    + intros k g t J. apply in_map_iff in J. destruct J as ([[k0 f0] t0] & E & J). unfold undoc_entry in E. cbn [fst snd] in E. injection E as <- <- <-. eapply IH; [exact J|]. intros x. apply same_merged. exact S.
    + intros k g ss X. destruct (proj2 S _ _ _ X) as (f & Y & ->). destruct (Cv _ _ _ Y) as (f' & t & I & E). exists (nodoc_field f'), (undoc_t t). split; [|exact E].
      apply in_map_iff. exists (k, f', t). split; auto.
Qed.
Lemma nodoc_settled s frags P M : Rewrite.settled s frags P M -> forall M' : selset, (forall x, M x <-> M' x) -> Rewrite.settled (nodoc s) frags P M'.
Proof.
  induction 1 as [P M H1 _ IH]. intros M' I. constructor.
  - intros T k f ss f' ss' Po F F'. apply (proj1 (nodoc_possible _ _ _)) in Po. destruct (nodoc_focc_back _ _ _ _ _ _ _ _ _ I F) as (g & G & ->). destruct (nodoc_focc_back _ _ _ _ _ _ _ _ _ I F') as (g' & G' & ->).
    destruct (H1 _ _ _ _ _ _ Po G G') as (E & _). repeat split; auto.
  - intros T k f ss Po F C. apply (proj1 (nodoc_possible _ _ _)) in Po. destruct (nodoc_focc_back _ _ _ _ _ _ _ _ _ I F) as (g & G & ->). cbn [nodoc_field sf_type] in *. apply (proj1 (nodoc_composite _ _)) in C.
    eapply IH; eauto. apply same_merged. apply nodoc_same_occ. exact I.
Qed.

(** ** Declarations *)
Definition undoc_p (x : planned) : planned := (undoc_c (fst (fst x)), snd (fst x), snd x).
Lemma undoc_ids x : field_ids (undoc_c x) = field_ids x.
Proof.
  destruct x as [n fs]. unfold field_ids. cbn [undoc_c irc_fields]. f_equal. rewrite map_map. apply map_ext. apply undoc_prop.
Qed.
Lemma undoc_common xs : common_names (List.map undoc_c xs) = common_names xs.
Proof.
  destruct xs as [|x xs]; [reflexivity|]. cbn [common_names List.map]. rewrite undoc_ids. generalize (field_ids x). induction xs as [|y xs IH]; intros l; [reflexivity|].
  cbn [List.map fold_left]. rewrite undoc_ids. apply IH.
Qed.
Lemma undoc_shared xs x : is_shared (List.map undoc_c xs) (undoc_c x) = is_shared xs x.
Proof. unfold is_shared. rewrite undoc_common, undoc_ids. reflexivity. Qed.
Lemma filter_mapped {A} (g : A -> A) (p q : A -> bool) l : (forall x, p (g x) = q x) -> filter p (List.map g l) = List.map g (filter q l).
Proof. intros E. induction l as [|x l IH]; [reflexivity|]. cbn [List.map filter]. rewrite E. destruct (q x); cbn [List.map]; rewrite IH; reflexivity. Qed.
Lemma undoc_own xs : own (List.map undoc_c xs) = List.map undoc_c (own xs).
Proof. unfold own. apply filter_mapped. intros x. rewrite undoc_shared. reflexivity. Qed.
Lemma undoc_shareds xs : shared (List.map undoc_c xs) = List.map undoc_c (shared xs).
Proof. unfold shared. apply filter_mapped. intros x. apply undoc_shared. Qed.
Lemma undoc_names xs : List.map irc_name (List.map undoc_c xs) = List.map irc_name xs.
Proof. rewrite map_map. apply map_ext. apply undoc_name. Qed.
Lemma undoc_plan xs main : plan (List.map undoc_c xs) main = List.map undoc_p (plan xs main).
Proof.
  unfold plan. rewrite undoc_own, undoc_shareds. destruct (own xs) as [|x l] eqn:E; cbn [List.map].
  - destruct xs as [|x xs]; [reflexivity|]. cbn [List.map]. unfold undoc_p. cbn [fst snd]. rewrite undoc_name, undoc_names. reflexivity.
  - rewrite map_app. apply (f_equal2 (@app planned)).
    + cbn [List.map]. apply (f_equal2 (@cons planned)); [unfold undoc_p, own_name; cbn [fst snd]; rewrite undoc_name; reflexivity|]. rewrite !map_map. apply map_ext. intros y. unfold undoc_p, own_name. cbn [fst snd]. rewrite undoc_name. reflexivity.
    + rewrite <- map_rev. destruct (rev (shared xs)) as [|y r]; [reflexivity|]. cbn [List.map]. rewrite undoc_names. reflexivity.
Qed.
Lemma undoc_plan_names pl pl' : List.map undoc_p pl = List.map undoc_p pl' -> List.map plan_name pl = List.map plan_name pl'.
Proof.
  intros E. apply (f_equal (List.map plan_name)) in E. rewrite !map_map in E. exact E.
Qed.

(** The declarations of collections that are the same but for documentation *)
Lemma rendered_alike c :
  (forall names path t ds e us, rnd_type c names path t ds e us -> forall t' ds' e' us', undoc_t t = undoc_t t' -> rnd_type c names path t' ds' e' us' ->
     List.map bare_decl ds = List.map bare_decl ds' /\ e = e' /\ us = us') /\
  (forall names path fs ds ms us, rnd_fields c names path fs ds ms us -> forall fs' ds' ms' us', List.map undoc_f fs = List.map undoc_f fs' -> rnd_fields c names path fs' ds' ms' us' ->
     List.map bare_decl ds = List.map bare_decl ds' /\ List.map bare_member ms = List.map bare_member ms' /\ us = us') /\
  (forall pl ds us, rnd_plan c pl ds us -> forall pl' ds' us', List.map undoc_p pl = List.map undoc_p pl' -> rnd_plan c pl' ds' us' ->
     List.map bare_decl ds = List.map bare_decl ds' /\ us = us') /\
  (forall xs main ds us, rnd_coll c xs main ds us -> forall xs' ds' us', List.map undoc_c xs = List.map undoc_c xs' -> rnd_coll c xs' main ds' us' ->
     List.map bare_decl ds = List.map bare_decl ds' /\ us = us').
Proof.
  apply (rnd_mutind c
    (fun names path t ds e us _ => forall t' ds' e' us', undoc_t t = undoc_t t' -> rnd_type c names path t' ds' e' us' ->
       List.map bare_decl ds = List.map bare_decl ds' /\ e = e' /\ us = us')
    (fun names path fs ds ms us _ => forall fs' ds' ms' us', List.map undoc_f fs = List.map undoc_f fs' -> rnd_fields c names path fs' ds' ms' us' ->
       List.map bare_decl ds = List.map bare_decl ds' /\ List.map bare_member ms = List.map bare_member ms' /\ us = us')
    (fun pl ds us _ => forall pl' ds' us', List.map undoc_p pl = List.map undoc_p pl' -> rnd_plan c pl' ds' us' ->
       List.map bare_decl ds = List.map bare_decl ds' /\ us = us')
    (fun xs main ds us _ => forall xs' ds' us', List.map undoc_c xs = List.map undoc_c xs' -> rnd_coll c xs' main ds' us' ->
       List.map bare_decl ds = List.map bare_decl ds' /\ us = us')).
  - intros names path t' ds' e' us' E R. destruct R; try discriminate E. auto.
  - intros names path n t' ds' e' us' E R. destruct R; try discriminate E. injection E as ->. auto.
  - intros names path sc t' ds' e' us' E R. destruct R; try discriminate E. injection E as ->. auto.
  - intros names path xs ds us _ IH t' ds' e' us' E R. destruct R as [| | |names path xs' ds' us' R]; try discriminate E. cbn in E. injection E as E. destruct (IH _ _ _ E R) as [A B]. auto.
  - intros names path fs' ds' ms' us' E R. destruct R; [auto|discriminate E].
  - intros names path k d dp l r t fs ds e us ds1 ms1 us1 _ IH1 _ IH2 fs' ds' ms' us' E R.
    destruct R as [|names path k' d' dp' l' r' t' fs' ds' e' us' ds2 ms2 us2 R1 R2]; [discriminate E|]. cbn in E. injection E as <- <- <- Et Ef.
    destruct (IH1 _ _ _ _ Et R1) as (A1 & <- & <-). destruct (IH2 _ _ _ _ Ef R2) as (A2 & A3 & <-). rewrite !map_app, A1, A2. cbn [List.map]. rewrite A3. auto.
  - intros pl' ds' us' E R. destruct R; [auto|discriminate E].
  - intros T fs names path pl ds ms us ds1 us1 _ IH1 _ IH2 pl' ds' us' E R.
    destruct R as [|T' fs' names' path' pl' ds' ms' us' ds2 us2 R1 R2]; [discriminate E|]. cbn in E. injection E as <- Ef <- <- Ep.
    destruct (IH1 _ _ _ _ Ef R1) as (A1 & A2 & <-). destruct (IH2 _ _ _ Ep R2) as (A3 & <-). rewrite !map_app, A1, A3. cbn [List.map bare_decl]. rewrite A2. auto.
  - intros xs main ds us Ne Ow _ IH xs' ds' us' E R. destruct R as [xs' main ds' us' Ne' Ow' R|xs' main ds' us' Ow' R].
    + apply (IH _ _ _ ltac:(rewrite <- !undoc_plan, E; reflexivity) R).
    + exfalso. apply Ow'. pose proof (undoc_own xs) as U. rewrite Ow, E, undoc_own in U. destruct (own xs'); [reflexivity|discriminate U].
  - intros xs main ds us Ow _ IH xs' ds' us' E R. destruct R as [xs' main ds' us' Ne' Ow' R|xs' main ds' us' Ow' R].
    + exfalso. apply Ow. pose proof (undoc_own xs) as U. rewrite E, undoc_own, Ow' in U. destruct (own xs); [reflexivity|discriminate U].
    + assert (Ep : List.map undoc_p (plan xs main) = List.map undoc_p (plan xs' main)) by (rewrite <- !undoc_plan, E; reflexivity).
      destruct (IH _ _ _ Ep R) as (A & <-). rewrite !map_app, A, (undoc_plan_names _ _ Ep). auto.
Qed.

(** ** Two schemas that are the same without documentation *)
Section Alike.
  Variables s s' : schema.
  Hypothesis same : nodoc s = nodoc s'.

  Lemma alike_get n : match get_type s n, get_type s' n with Some t, Some t' => nodoc_def (st_def t) = nodoc_def (st_def t') | None, None => True | _, _ => False end.
  Proof.
    pose proof (nodoc_get s n) as A. pose proof (nodoc_get s' n) as B. rewrite same, B in A. destruct (get_type s n), (get_type s' n); cbn in A; try discriminate A; auto. injection A as A. auto.
  Qed.
  Lemma alike_composite c : composite s c <-> composite s' c.
  Proof. rewrite <- (nodoc_composite s), <- (nodoc_composite s'), same. tauto. Qed.
  Lemma alike_possible c T : possible s c T <-> possible s' c T.
  Proof. rewrite <- (nodoc_possible s), <- (nodoc_possible s'), same. tauto. Qed.
  Lemma alike_consistent : consistent s <-> consistent s'.
  Proof. rewrite <- (nodoc_consistent s), <- (nodoc_consistent s'), same. tauto. Qed.
  Lemma alike_inhabited : inhabited_types s <-> inhabited_types s'.
  Proof. rewrite <- (nodoc_inhabited s), <- (nodoc_inhabited s'), same. tauto. Qed.
  Lemma alike_proper : proper_types s <-> proper_types s'.
  Proof. rewrite <- (nodoc_proper s), <- (nodoc_proper s'), same. tauto. Qed.
  Lemma alike_inputs : inputs_consistent s <-> inputs_consistent s'.
  Proof. rewrite <- (nodoc_inputs s), <- (nodoc_inputs s'), same. tauto. Qed.
  Lemma alike_global n : global_type s n <-> global_type s' n.
  Proof. rewrite <- (nodoc_global s), <- (nodoc_global s'), same. tauto. Qed.
  Lemma alike_leads n m : SpecGlobal.leads s n m <-> SpecGlobal.leads s' n m.
  Proof. rewrite <- (nodoc_leads s), <- (nodoc_leads s'), same. tauto. Qed.
  Lemma alike_ends n : wellfounded s n <-> wellfounded s' n.
  Proof. rewrite <- (nodoc_ends s), <- (nodoc_ends s'), same. tauto. Qed.
  Lemma alike_valid frags P l : valid_sels s frags P l <-> valid_sels s' frags P l.
  Proof. rewrite <- (nodoc_valid s), <- (nodoc_valid s'), same. tauto. Qed.

  (** Variables *)
  Lemma alike_vtype name p : vtype_of_name s name p = vtype_of_name s' name p.
  Proof. unfold vtype_of_name. pose proof (alike_get name) as A. destruct (get_type s name), (get_type s' name); try contradiction; reflexivity. Qed.
  Lemma alike_build ds : List.map (build_variable s) ds = List.map (build_variable s') ds.
  Proof. apply map_ext. intros d. unfold build_variable. destruct (unwrap_var_def d) as [[m g]|]; [|reflexivity]. rewrite alike_vtype. reflexivity. Qed.
  Lemma alike_variables ds : try_build_variable_ir s ds = try_build_variable_ir s' ds.
  Proof. unfold try_build_variable_ir. destruct ds as [|d ds]; [reflexivity|]. rewrite alike_build. reflexivity. Qed.
  Lemma alike_r_vars c vs : r_vars c s vs = r_vars c s' vs.
  Proof.
    induction vs as [|v vs IH]; [reflexivity|]. cbn [r_vars]. rewrite IH. assert (E : r_vartype c s v = r_vartype c s' v).
    { unfold r_vartype. destruct (v_type v) as [| | | | |name]; try reflexivity. pose proof (alike_get name) as A. destruct (get_type s name) as [t|], (get_type s' name) as [t'|]; try contradiction; [|reflexivity].
      destruct (st_def t), (st_def t'); try discriminate A; reflexivity. }
    rewrite E. reflexivity.
  Qed.

  (** Projects *)
  Lemma alike_good_var v : good_var s v -> good_var s' v.
  Proof.
    intros [L [B|N]]; split; auto; [left; auto|right]. pose proof (alike_get (gbase (vgtype v))) as A.
    destruct (get_type s (gbase (vgtype v))) as [t|]; [|congruence]. destruct (get_type s' (gbase (vgtype v))); [discriminate|contradiction].
  Qed.
  Lemma alike_valid_at e f c path contents d P l frags : valid_at e f c s path contents d P l frags -> valid_at e f c s' path contents d P l frags.
  Proof.
    intros [Rd Pa Ac Qu Fo Fr Br Ro Sb Cp (T & Po) Se Va In0]. constructor; auto.
    - apply alike_composite. auto.
    - exists T. apply alike_possible. auto.
    - apply alike_valid. auto.
    - intros v I. apply alike_good_var. auto.
    - intros x (v & Iv & Ex & Nb & t' & E' & Ns).
      assert (V : variable_type s d x).
      { exists v. split; auto. split; auto. split; auto. pose proof (alike_get x) as A. rewrite E' in A. destruct (get_type s x) as [t|] eqn:E; [|contradiction].
        exists t. split; auto. intros m D. rewrite D in A. destruct (st_def t') eqn:D'; try discriminate A. eapply Ns; eauto. }
      destruct (In0 x V) as [G W]. split; [apply alike_global; auto|apply alike_ends; auto].
  Qed.
End Alike.
Lemma alike_valid_project s s' e ls f c root : nodoc s = nodoc s' -> (valid_project e ls f c s root <-> valid_project e ls f c s' root).
Proof.
  assert (X : forall s s', nodoc s = nodoc s' -> valid_project e ls f c s root -> valid_project e ls f c s' root).
  { intros s1 s2 E [D S W]. constructor; auto. intros path Sp. destruct (S path Sp) as (contents & d & P & l & frags & V). exists contents, d, P, l, frags. eapply alike_valid_at; eauto. }
  intros E. split; apply X; auto.
Qed.

(** *** The module of a document *)
Lemma modules_alike n n' cx cx' c o o' d ws ws' co co' P l :
  nodoc (cx_schema cx) = nodoc (cx_schema cx') -> consistent (cx_schema cx) -> cx_frags cx' = cx_frags cx ->
  order_ok (cx_order cx) -> order_ok (cx_order cx') -> order_ok o -> order_ok o' ->
  document_file n cx c o d ws co -> document_file n' cx' c o' d ws' co' -> doc_root d = Some (P, l) -> is_subscription d = false ->
  frags_valid (cx_schema cx) (cx_frags cx) l -> Rewrite.settled (cx_schema cx) (cx_frags cx) P (fun x => In x l) ->
  co_globals co = co_globals co' /\
  exists m m', written_as cx c d co m /\ written_as cx' c d co' m' /\ tsfile_items m = tsfile_items m'.
Proof.
  intros E Co Fe O O' Oo Oo' H H' Dr Su Fv St.
  pose proof (proj1 (alike_consistent _ _ E) Co) as Co'.
  destruct (document_inv _ _ _ _ _ _ _ O Oo Co H) as (P1 & p1 & l1 & op & ds & us & vds & vus & R1 & C1 & Hd & En & Ek & Ev & Sh & Rn & Rv & Eg & W).
  destruct (document_inv _ _ _ _ _ _ _ O' Oo' Co' H') as (P2 & p2 & l2 & op' & ds' & us' & vds' & vus' & R2 & C2 & Hd' & En' & Ek' & Ev' & Sh' & Rn' & Rv' & Eg' & W').
  destruct (document_collected _ _ _ _ _ _ _ O Co Hd Dr Su Fv) as [V K].
  assert (V' : valid_sels (cx_schema cx') (cx_frags cx') P l) by (rewrite Fe; apply (alike_valid _ _ E); exact V).
  destruct (document_collected _ _ _ _ _ _ _ O' Co' Hd' Dr Su (proj2 (valid_frags _ _) _ _ V')) as [_ K'].
  pose proof (proj1 (proj2 (nodoc_collected _ _)) _ _ _ K _ (fun x => iff_refl _)) as N.
  pose proof (proj1 (proj2 (nodoc_collected _ _)) _ _ _ K' _ (fun x => iff_refl _)) as N'. rewrite Fe, <- E in N'.
  pose proof (nodoc_settled _ _ _ _ St _ (fun x => iff_refl _)) as St0.
  pose proof (coll_det (nodoc (cx_schema cx)) (cx_frags cx) (proj2 (nodoc_consistent _) Co) same_data (fun _ _ Z => Z) _ _ _
    (alike_same _ _ _ _ _ (alike_refl _ _ _ _ St0)) St0 _ _ N N') as Ec.
  destruct (proj2 (proj2 (proj2 (rendered_alike c))) _ _ _ _ Rn _ _ _ Ec Rn') as [Ed <-].
  assert (Eo : op_variables op = op_variables op') by (rewrite (alike_variables _ _ E), Ev' in Ev; congruence).
  assert (Er : r_variables c (cx_schema cx) op = r_variables c (cx_schema cx') op').
  { unfold r_variables. rewrite Eo, En, En'. destruct (op_variables op') as [vs|]; [|reflexivity]. rewrite (alike_r_vars _ _ E). reflexivity. }
  rewrite Er, Rv' in Rv. injection Rv as <- <-. assert (Eg2 : co_globals co = co_globals co') by congruence. split; [exact Eg2|].
  do 2 eexists. split; [exact W|]. split; [exact W'|]. unfold tsfile_items, file_of. cbn [tf_node tf_node_from tf_globals tf_globals_from tf_decls tf_args].
  rewrite Eg2, Ek, Ek'. unfold node_args, vars_arg. rewrite Ek, Ek', En, En', Eo. f_equal. f_equal. f_equal.
  rewrite <- !(map_map bare_decl ItType), !map_app, Ed. reflexivity.
Qed.

(** *** The globals file *)
Lemma says_alike c n t t' it it' : nodoc_def (st_def t) = nodoc_def (st_def t') -> (forall nm fs, st_def t = TInputObject nm fs -> NoDup (List.map fst fs)) ->
  def_says c n t it -> def_says c n t' it' -> it = it'.
Proof.
  intros E N [vs ws D Pm So|fields fs D Pm So] D'; rewrite D in E.
  - destruct D' as [vs' ws' D' Pm' So'|fields' fs' D' Pm' So']; rewrite D' in E; [|discriminate E]. injection E as <-. do 2 f_equal.
    assert (X : forall a b : list string, sorted_by (fun v => v) a -> sorted_by (fun v => v) b -> Permutation a b -> a = b) by (apply sorted_strings_eq).
    apply X; auto. rewrite <- Pm. exact Pm'.
  - destruct D' as [vs' ws' D' Pm' So'|fields' fs' D' Pm' So']; rewrite D' in E; [discriminate E|]. cbn in E. injection E as E.
    assert (X : nodoc_fields fs = nodoc_fields fs').
    { apply (sorted_perm_eq fst).
      - eapply sorted_mapped; [|exact So]. reflexivity.
      - eapply sorted_mapped; [|exact So']. reflexivity.
      - rewrite nodoc_keys. eapply Permutation_NoDup; [apply Permutation_map; exact Pm|]. exact (N _ _ D).
      - unfold nodoc_fields. rewrite <- (Permutation_map _ Pm), <- (Permutation_map _ Pm'). unfold nodoc_fields in E. rewrite E. reflexivity. }
    cbn [bare_decl]. do 2 f_equal. rewrite !map_map.
    assert (Y : forall l, List.map (fun x => bare_member (input_member c x)) l = List.map (fun x => bare_member (input_member c x)) (nodoc_fields l)).
    { intros l0. unfold nodoc_fields. rewrite map_map. apply map_ext. intros [k f]. reflexivity. }
    rewrite (Y fs), (Y fs'), X. reflexivity.
Qed.
