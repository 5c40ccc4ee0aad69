(** Deciding whether names are usable, for the examples. *)
From Verif Require Export Written.

Definition gnameb (s : string) : bool :=
  match s with EmptyString => false | String c s' => letter c && all_chars letter_or_digit s' end.
Lemma gnameb_ok s : gnameb s = true -> gname s.
Proof. destruct s as [|c s]; [discriminate|]. cbn. rewrite andb_true_iff. auto. Qed.
Definition reservedb (n : string) : bool := existsb (String.eqb n) (keywords ++ predefined).
Lemma reservedb_ok n : reservedb n = false -> ~ reserved n.
Proof. unfold reservedb, reserved. rewrite existsb_in, in_app_iff. auto. Qed.
Definition scalar_fineb (c : cconfig) (n : string) : bool :=
  ref_name (match cc_bottom c with BottomAny => "any" | BottomReal => n | BottomPrefix p => p +++ n end).
Lemma scalar_fineb_ok c n : scalar_fineb c n = true -> scalar_fine c n.
Proof. unfold scalar_fineb, scalar_fine, custom_written. destruct (cc_bottom c); intros H w ->; auto. Qed.

Definition is_scalar (d : tdef) : bool := match d with TScalar _ => true | _ => false end.
Definition field_fineb (c : cconfig) (f : sfield) : bool :=
  match ft_def (sf_type f) with
  | FDScalar (ScCustom n) => scalar_fineb c n
  | FDTypeName => match ft_mod (sf_type f), ft_rest (sf_type f) with MNone, [] => true | _, _ => false end
  | _ => true
  end && match sf_doc f with Some d => negb (has_close d) | None => true end.
Definition type_fineb (c : cconfig) (x : string * stype) : bool :=
  gnameb (fst x) && (if is_scalar (st_def (snd x)) then scalar_fineb c (fst x) else negb (reservedb (fst x))) &&
  match st_def (snd x) with
  | TObject fs => forallb (fun y => field_fineb c (snd y)) fs
  | TInterface _ fs ps | TUnion _ ps fs => forallb (fun y => field_fineb c (snd y)) fs && forallb gnameb ps
  | _ => true
  end.
Definition nameableb (c : cconfig) (s : schema) : bool :=
  forallb (type_fineb c) s && quotable (cc_docnode_module c) && quotable (cc_globals_module c).
Lemma nameableb_ok c s : nameableb c s = true -> nameable c s.
Proof.
  unfold nameableb. rewrite !andb_true_iff, forallb_forall. intros [[H Q1] Q2].
  assert (T : forall n t, get_type s n = Some t -> type_fineb c (n, t) = true) by (intros n t E; apply H; apply aget_In; auto).
  assert (F : forall P n f, field_of s P n f -> field_fineb c f = true).
  { intros P n f (t & E & A). apply T in E. unfold type_fineb in E. cbn [fst snd] in E. apply andb_true_iff in E. destruct E as [_ E].
    destruct (st_def t); try contradiction; apply aget_In in A.
    - rewrite forallb_forall in E. apply (E _ A).
    - apply andb_true_iff in E. destruct E as [E _]. rewrite forallb_forall in E. apply (E _ A).
    - apply andb_true_iff in E. destruct E as [E _]. rewrite forallb_forall in E. apply (E _ A). }
  constructor; auto.
  - intros n t E. apply T in E. unfold type_fineb in E. rewrite !andb_true_iff in E. apply gnameb_ok. apply E.
  - intros P U (t & E & Po). pose proof (T _ _ E) as E'. unfold type_fineb in E'. cbn [fst snd] in E'. rewrite !andb_true_iff in E'.
    destruct E' as [[G _] E']. destruct (st_def t); try contradiction.
    + subst. apply gnameb_ok. auto.
    + apply andb_true_iff in E'. destruct E' as [_ E']. rewrite forallb_forall in E'. apply gnameb_ok. auto.
    + apply andb_true_iff in E'. destruct E' as [_ E']. rewrite forallb_forall in E'. apply gnameb_ok. auto.
  - intros n t E N. apply T in E. unfold type_fineb in E. cbn [fst snd] in E. rewrite !andb_true_iff in E. destruct E as [[_ E] _].
    destruct (st_def t); cbn in E; try (apply reservedb_ok; apply negb_true_iff; exact E). destruct (N name). reflexivity.
  - intros P n f sc Ff D. apply F in Ff. unfold field_fineb in Ff. rewrite D in Ff. apply andb_true_iff in Ff. apply scalar_fineb_ok. tauto.
  - intros n t x E D. apply T in E. unfold type_fineb in E. cbn [fst snd] in E. rewrite D in E. rewrite !andb_true_iff in E.
    apply scalar_fineb_ok. apply E.
  - intros P n f Ff D. apply F in Ff. unfold field_fineb in Ff. rewrite D in Ff. apply andb_true_iff in Ff. destruct Ff as [Ff _].
    destruct (ft_mod (sf_type f)), (ft_rest (sf_type f)); try discriminate; auto.
  - intros P n f d Ff D. apply F in Ff. unfold field_fineb in Ff. rewrite D in Ff. apply andb_true_iff in Ff. destruct Ff as [_ Ff].
    apply has_close_false. apply negb_true_iff. exact Ff.
Qed.

(** Keys of a document; [false] when fuel runs out *)
Fixpoint keysb (fuel : nat) (frags : amap string fragdef) (sels : list selection) : bool :=
  match fuel with
  | O => false
  | S f => forallb (fun x => match x with
                             | SField _ al n _ _ sub => gnameb (response_key al n) && keysb f frags sub
                             | SInline _ _ _ sub => keysb f frags sub
                             | SSpread _ n _ => match aget n frags with Some fd => keysb f frags (fr_sels fd) | None => true end
                             end) sels
  end.
Lemma keysb_ok frags : forall sels k, selects frags sels k -> forall fuel, keysb fuel frags sels = true -> gname k.
Proof.
  induction 1 as [p al n a d sub sels I|p al n a d sub sels k I M IH|p c d sub sels k I M IH|p n d f sels k I G M IH];
    intros fuel H; (destruct fuel as [|fuel]; [discriminate|]); cbn [keysb] in H; rewrite forallb_forall in H; specialize (H _ I); cbn in H.
  - apply andb_true_iff in H. apply gnameb_ok. tauto.
  - apply andb_true_iff in H. eapply IH. apply H.
  - eapply IH. eauto.
  - rewrite G in H. eapply IH. eauto.
Qed.
Definition doc_namedb (fuel : nat) (frags : amap string fragdef) (d : definition) : bool :=
  gnameb (def_name d) && negb (reservedb (def_name d)) && keysb fuel frags (doc_sels d) && forallb (fun v => gnameb (vd_name v)) (doc_vars d).
Lemma doc_namedb_ok fuel frags d : doc_namedb fuel frags d = true -> doc_named frags d (def_name d).
Proof.
  unfold doc_namedb. rewrite !andb_true_iff, forallb_forall, negb_true_iff. intros [[[A B] C] D]. constructor.
  - apply gnameb_ok. auto.
  - apply reservedb_ok. auto.
  - intros k M. eapply keysb_ok; eauto.
  - intros v I. apply gnameb_ok. auto.
Qed.

Lemma written_reads cx c d co m : written_as cx c d co m -> nameable c (cx_schema cx) -> doc_named (cx_frags cx) d (def_name d) -> reads_as co m.
Proof. intros [E R] Nm Dn. split; auto. Qed.
