(** Import processing against SpecImport.v. *)
From Verif Require Export SpecImport PathFacts GraphqlFacts.

(** ** Paths as keys *)
Lemma path_eqb_refl a : path_eqb a a = true.
Proof. apply path_eqb_eq. auto. Qed.
Lemma path_eqb_sym a b : path_eqb a b = path_eqb b a.
Proof. apply eq_true_iff_eq. rewrite !path_eqb_eq. split; auto. Qed.

Lemma aget_paset {V} k k' (v : V) m :
  aget (P k) (aset (P k') v m) = if path_eqb k k' then Some v else aget (P k) m.
Proof.
  induction m as [|[[k1] v1] m IH]; cbn [aset aget].
  - cbn [eqb EqB_rpath raw]. unfold eqb, EqB_rpath. cbn [raw]. destruct (path_eqb k k'); auto.
  - unfold eqb, EqB_rpath in *. cbn [raw] in *. destruct (path_eqb k' k1) eqn:E1; cbn [aget]; unfold eqb; cbn [raw].
    + apply path_eqb_eq in E1. destruct (path_eqb k k') eqn:E2.
      * apply path_eqb_eq in E2. replace (path_eqb k k1) with true; auto. symmetry. apply path_eqb_eq. congruence.
      * replace (path_eqb k k1) with false; auto. symmetry. apply not_true_iff_false. intros E3.
        apply path_eqb_eq in E3. apply not_true_iff_false in E2. apply E2. apply path_eqb_eq. congruence.
    + destruct (path_eqb k k1) eqn:E2; [|exact IH].
      destruct (path_eqb k k') eqn:E3; auto. apply path_eqb_eq in E2, E3. apply not_true_iff_false in E1.
      exfalso. apply E1. apply path_eqb_eq. congruence.
Qed.
Lemma In_paset {V} k (v : V) m x :
  In x (aset (P k) v m) -> In x m \/ snd x = v /\ path_eqb k (raw (fst x)) = true.
Proof.
  induction m as [|[k1 v1] m IH]; cbn [aset In].
  - intros [<-|[]]. right. cbn. split; auto. apply path_eqb_refl.
  - unfold eqb, EqB_rpath. cbn [raw]. destruct (path_eqb k (raw k1)) eqn:E; cbn [In].
    + intros [<-|H]; auto.
    + intros [<-|H]; auto. apply IH in H. destruct H; auto.
Qed.
Lemma aget_pin {V} k (m : amap rpath V) v : aget (P k) m = Some v -> exists k', In (k', v) m /\ path_eqb k (raw k') = true.
Proof.
  induction m as [|[k1 v1] m IH]; cbn [aget]; [discriminate|].
  unfold eqb, EqB_rpath. cbn [raw]. destruct (path_eqb k (raw k1)) eqn:E.
  - intros H; inversion H; subst. exists k1. cbn. auto.
  - intros H. destruct (IH H) as (k' & I & E'). exists k'. cbn. auto.
Qed.

(** ** Lines *)
Lemma import_mark_start : import_mark = import_start.
Proof. reflexivity. Qed.
Lemma strip_prefix_ends p x r c : ~ has_char c p -> strip_prefix p (x +++ String c "") = Some r ->
  exists y, r = y +++ String c "".
Proof.
  revert x. induction p as [|a p IH]; intros x N H; cbn in H.
  - inversion H; subst. eauto.
  - destruct x as [|b x]; cbn in H.
    + destruct (Ascii.eqb a c) eqn:E; [|discriminate]. apply Ascii.eqb_eq in E. subst. exfalso. apply N. cbn. auto.
    + destruct (Ascii.eqb a b); [|discriminate]. apply IH in H; auto. intros B. apply N. cbn. auto.
Qed.
Lemma first_strip_ends ps x r c : Forall (fun p => ~ has_char c p) ps ->
  first_strip ps (x +++ String c "") = Some r -> exists y, r = y +++ String c "".
Proof.
  induction 1 as [|p ps Np Nps IH]; cbn; [discriminate|].
  destruct (strip_prefix p (x +++ String c "")) eqn:E; auto.
  intros H; inversion H; subst. eapply strip_prefix_ends; eauto.
Qed.
Lemma trim_end_rev_ends c fuel : Forall (fun p => ~ has_char c p) (List.map srev whitespace) ->
  forall x, exists y, trim_end_rev_fuel fuel (x +++ String c "") = y +++ String c "".
Proof.
  intros N. induction fuel as [|k IH]; intros x; cbn [trim_end_rev_fuel]; [eauto|].
  destruct (first_strip (List.map srev whitespace) (x +++ String c "")) as [r|] eqn:E; [|eauto].
  destruct (first_strip_ends _ _ _ _ N E) as [y ->]. apply IH.
Qed.
Lemma trim_hash r : exists s, trim (String "#" r) = String "#" s.
Proof.
  unfold trim.
  assert (trim_start (String "#" r) = String "#" r) as ->.
  { unfold trim_start. cbn [String.length trim_start_fuel].
    replace (first_strip whitespace (String "#" r)) with (@None string); [reflexivity|].
    unfold whitespace. cbn. reflexivity. }
  unfold trim_end. rewrite srev_cons.
  destruct (trim_end_rev_ends "#"%char (String.length (String "#" r))) with (x := srev r) as [y ->].
  - unfold whitespace, bs. cbn [List.map app fold_right]. repeat constructor; vm_compute; intuition discriminate.
  - rewrite srev_app. cbn. eauto.
Qed.
Lemma is_empty_spec s : is_empty s = true <-> s = "".
Proof. destruct s; cbn; split; congruence. Qed.
Lemma blank_hash r : ~ blank (String "#" r).
Proof. unfold blank. destruct (trim_hash r) as [s ->]. discriminate. Qed.
Lemma blank_spec l : is_empty l || is_empty (trim l) = true <-> blank l.
Proof.
  rewrite orb_true_iff, !is_empty_spec. unfold blank. split; [intros [->|H]|]; auto.
Qed.
Lemma comment_spec l : starts_with "#" l = true <-> comment l.
Proof.
  rewrite starts_with_spec. split; intros [r ->]; exists r; reflexivity.
Qed.
Lemma unquoted_dec l : starts_with import_start l = true -> unclosed l \/ exists q, names_import l q.
Proof.
  rewrite starts_with_spec. intros [r ->]. destruct (rfind quote r) as [i|] eqn:E.
  - right. apply rfind_Some in E. destruct E as (a & b & -> & _ & N). exists a, b. rewrite import_mark_start. auto.
  - left. apply rfind_None in E. exists r. rewrite import_mark_start. auto.
Qed.
Lemma names_start l q : names_import l q -> exists r, l = String "#" r.
Proof. intros (rest & -> & _). unfold import_mark. cbn. eauto. Qed.
Lemma names_starts l q : names_import l q -> starts_with import_start l = true.
Proof. intros (rest & -> & _). apply starts_with_spec. rewrite <- import_mark_start. eauto. Qed.
Lemma unclosed_starts l : unclosed l -> starts_with import_start l = true.
Proof. intros (rest & -> & _). apply starts_with_spec. rewrite <- import_mark_start. eauto. Qed.

(** ** Resolution *)
Lemma resolves_fun c dir q : exists t, resolves c dir q t /\ forall t', resolves c dir q t' -> t' = t.
Proof.
  assert (D : (exists r, has_prefix c q r) \/ forall r, ~ has_prefix c q r).
  { destruct (cc_import_prefix c) as [p|] eqn:E.
    - destruct (strip_prefix p q) as [r|] eqn:Es.
      + left. exists r, p. apply strip_prefix_Some in Es. auto.
      + right. intros r (p' & E' & ->). rewrite E in E'. inversion E'; subst. rewrite strip_prefix_app in Es. discriminate.
    - right. intros r (p & E' & _). congruence. }
  destruct D as [[r Hr]|N].
  - exists (path_join (cc_root_dir c) r). split; [constructor; auto|].
    intros t' H. destruct H as [r' Hr'|r' N|N]; try (exfalso; eapply N; eauto; fail).
    destruct Hr as (p & Ep & ->), Hr' as (p' & Ep' & E). rewrite Ep in Ep'. inversion Ep'; subst.
    apply sapp_inj_l in E. congruence.
  - destruct q as [|a q].
    + exists (path_join (cc_root_dir c) ""). split; [apply resolves_root; auto; discriminate|].
      intros t' H. destruct H as [r' Hr'|r' N' E|N']; auto; [exfalso; eapply N; eauto|discriminate].
    + destruct (ascii_dec a ".") as [->|Na].
      * exists (path_join dir (String "." q)). split; [eapply resolves_relative; eauto|].
        intros t' H. destruct H as [r' Hr'|r' N' E|N' E]; auto; exfalso; [eapply N; eauto|eapply E; eauto].
      * exists (path_join (cc_root_dir c) (String a q)). split; [apply resolves_root; auto; intros; congruence|].
        intros t' H. destruct H as [r' Hr'|r' N' E|N' E]; auto; exfalso; [eapply N; eauto|congruence].
Qed.

Lemma slice_mid a q b : slice (a +++ q +++ b) (String.length a) (String.length a + String.length q) = Some q.
Proof.
  unfold slice. rewrite !slen_app.
  replace (String.length a <=? String.length a + String.length q) with true by (symmetry; apply Nat.leb_le; lia).
  replace (String.length a + String.length q <=? String.length a + (String.length q + String.length b)) with true
    by (symmetry; apply Nat.leb_le; lia).
  cbn [andb]. rewrite drop_app. replace (String.length a + String.length q - String.length a) with (String.length q) by lia.
  rewrite take_app. reflexivity.
Qed.
Lemma target_spec c l q dir : names_import l q ->
  exists t, import_target c l dir = Some t /\ resolves c dir q t.
Proof.
  intros (rest & -> & N). unfold import_target.
  assert (R : rfind (ascii_of_nat 34) (import_mark +++ q +++ String quote rest)
              = Some (String.length import_mark + String.length q)).
  { apply rfind_Some. exists (import_mark +++ q), rest. rewrite sapp_assoc, slen_app. auto. }
  rewrite R. rewrite import_mark_start. rewrite slice_mid.
  destruct (resolves_fun c dir q) as (t & Ht & U). exists t. split; auto. f_equal.
  apply U. clear R Ht U. unfold starts_with at 1.
  assert (K : forall p, cc_import_prefix c = Some p -> strip_prefix p q = None -> forall r', ~ has_prefix c q r').
  { intros p Ep Es r' (p' & Ep' & ->). rewrite Ep in Ep'. inversion Ep'; subst. rewrite strip_prefix_app in Es. discriminate. }
  assert (M : (forall r', ~ has_prefix c q r') ->
     resolves c dir q (if match strip_prefix "." q with Some _ => true | None => false end
                       then path_join dir q else path_join (cc_root_dir c) q)).
  { intros Np. destruct (strip_prefix "." q) as [r|] eqn:E.
    - apply strip_prefix_Some in E. eapply resolves_relative; eauto.
    - apply resolves_root; auto. intros r ->. cbn in E. discriminate. }
  destruct (cc_import_prefix c) as [p|] eqn:Ep.
  - destruct (strip_prefix p q) as [r|] eqn:Es.
    + apply resolves_prefix. exists p. apply strip_prefix_Some in Es. auto.
    + apply M. eapply K; eauto.
  - apply M. intros r (p' & Ep' & _). congruence.
Qed.
Lemma target_unclosed c l dir : unclosed l -> import_target c l dir = None.
Proof.
  intros (rest & -> & N). unfold import_target.
  assert (R : rfind (ascii_of_nat 34) (import_mark +++ rest) = Some 8).
  { apply rfind_Some. exists "#import ", rest. auto. }
  rewrite R. unfold slice. reflexivity.
Qed.

(** ** The loop *)
Definition walker : Type := string -> string -> imports -> list message -> outcome (imports * list message).
Fixpoint imp_loop (rec : walker) (e : env) (f : fs) (c : cconfig) (file : string) (n : nat) (ls : list string)
         (im : imports) (ms : list message) : outcome (imports * list message) :=
  match ls with
  | [] => Done (im, ms)
  | line :: ls' =>
      if is_empty line || is_empty (trim line) then imp_loop rec e f c file (S n) ls' im ms
      else if negb (starts_with import_start line) then
             if starts_with "#" line then imp_loop rec e f c file (S n) ls' im ms else Done (im, ms)
      else
        let loc := loc_line_column (n + 1) line (String.length import_start) in
        match import_target c line (path_pop file) with
        | None => Panics
        | Some target =>
            match read_file e f target with
            | Err m => imp_loop rec e f c file (S n) ls' im (ms ++ [with_source m file (Some loc)])
            | Ok other =>
                match rec target other im ms with
                | Done (im', ms') => imp_loop rec e f c file (S n) ls' (aset (P target) (other, loc) im') ms'
                | Panics => Panics
                | Diverges => Diverges
                end
            end
        end
  end.
Lemma add_imports_S k e f c file contents im ms :
  add_imports (S k) e f c file contents im ms
  = imp_loop (add_imports k e f c) e f c file 0 (lines contents) im ms.
Proof.
  cbn [add_imports]. generalize 0 at 3 4. revert im ms.
  induction (lines contents) as [|line ls IH]; intros im ms n; cbn [imp_loop]; [reflexivity|].
  destruct (is_empty line || is_empty (trim line)); [apply IH|].
  destruct (negb (starts_with import_start line)); [destruct (starts_with "#" line); [apply IH|reflexivity]|].
  destruct (import_target c line (path_pop file)) as [t|]; [|reflexivity].
  destruct (read_file e f t) as [other|m]; [|apply IH].
  destruct (add_imports k e f c t other im ms) as [[im' ms']| |]; [apply IH|reflexivity|reflexivity].
Qed.

(** The four kinds of lines *)
Inductive line_kind (c : cconfig) (dir l : string) : Prop :=
| lk_skip : (is_empty l || is_empty (trim l) = true \/
             is_empty l || is_empty (trim l) = false /\ negb (starts_with import_start l) = true /\
             starts_with "#" l = true) ->
            leading l -> (forall q, ~ names_import l q) -> ~ unclosed l -> line_kind c dir l
| lk_stop : is_empty l || is_empty (trim l) = false -> negb (starts_with import_start l) = true ->
            starts_with "#" l = false -> ~ leading l -> line_kind c dir l
| lk_open : is_empty l || is_empty (trim l) = false -> negb (starts_with import_start l) = false ->
            import_target c l dir = None -> leading l -> unclosed l -> line_kind c dir l
| lk_import q t : is_empty l || is_empty (trim l) = false -> negb (starts_with import_start l) = false ->
            import_target c l dir = Some t -> leading l -> names_import l q -> resolves c dir q t ->
            ~ unclosed l -> line_kind c dir l.
Lemma line_kinds c dir l : line_kind c dir l.
Proof.
  destruct (is_empty l || is_empty (trim l)) eqn:E1.
  - assert (B : blank l) by (apply blank_spec; auto). apply lk_skip; auto; [left; auto| |].
    + intros q Q. destruct (names_start _ _ Q) as [r ->]. eapply blank_hash; eauto.
    + intros (rest & -> & _). exact (blank_hash _ B).
  - assert (B : ~ blank l) by (intros B; apply blank_spec in B; congruence).
    destruct (starts_with import_start l) eqn:E2.
    + assert (C : leading l). { right. apply starts_with_spec in E2. destruct E2 as [r ->]. cbn. eexists. reflexivity. }
      assert (E2' : negb (starts_with import_start l) = false) by (rewrite E2; auto).
      destruct (unquoted_dec _ E2) as [U|[q Q]].
      * apply lk_open; auto. apply target_unclosed. auto.
      * destruct (target_spec c l q dir Q) as (t & T & R). eapply lk_import; eauto.
        intros U. rewrite (target_unclosed c l dir U) in T. discriminate.
    + assert (E2' : negb (starts_with import_start l) = true) by (rewrite E2; auto).
      destruct (starts_with "#" l) eqn:E3.
      * apply lk_skip; auto.
        -- right. apply comment_spec. auto.
        -- intros q Q. apply names_starts in Q. congruence.
        -- intros U. apply unclosed_starts in U. congruence.
      * apply lk_stop; auto. intros [B'|C]; [contradiction|]. apply comment_spec in C. congruence.
Qed.

(** Lines of a suffix of the file: [pre] are the lines already passed, all leading *)
Definition import_in (c : cconfig) (file : string) (pre ls : list string) (n : nat) (l target : string) : Prop :=
  exists q k, n = List.length pre + k /\ nth_error ls k = Some l /\
    (forall j l', j < k -> nth_error ls j = Some l' -> leading l') /\
    names_import l q /\ resolves c (path_pop file) q target.
Definition open_in (ls : list string) : Prop :=
  exists k l, nth_error ls k = Some l /\ (forall j l', j < k -> nth_error ls j = Some l' -> leading l') /\ unclosed l.

Lemma import_in_nil c file contents n l t :
  import_in c file [] (lines contents) n l t <-> imports_at c file contents n l t.
Proof.
  unfold import_in, imports_at, leading_line. cbn [List.length]. split.
  - intros (q & k & -> & A & B & C & D). exists q. cbn. auto.
  - intros (q & (A & B) & C & D). exists q, n. auto 10.
Qed.
Lemma import_in_skip c file pre line ls n l t :
  leading line -> (forall q, ~ names_import line q) ->
  import_in c file pre (line :: ls) n l t <-> import_in c file (pre ++ [line]) ls n l t.
Proof.
  intros Le Nq. unfold import_in. split.
  - intros (q & [|k] & -> & A & B & C & D); cbn in A; [inversion A; subst; exfalso; eapply Nq; eauto|].
    exists q, k. rewrite app_length. cbn. split; [lia|]. split; auto. split; auto.
    intros j l' L. apply (B (S j) l'). lia.
  - intros (q & k & -> & A & B & C & D). exists q, (S k). rewrite app_length. cbn. split; [lia|]. split; auto. split; auto.
    intros [|j] l' L; cbn; [intros H; inversion H; subst; auto|]. apply B. lia.
Qed.
Lemma import_in_stop c file pre line ls n l t :
  ~ leading line -> ~ import_in c file pre (line :: ls) n l t.
Proof.
  intros Nl (q & [|k] & -> & A & B & C & D); cbn in A.
  - inversion A; subst. apply Nl. right. destruct (names_start _ _ C) as [r ->]. eexists; reflexivity.
  - apply Nl. apply (B 0 line); [lia|reflexivity].
Qed.
Lemma import_in_cons c file pre line ls n l t q0 t0 :
  names_import line q0 -> resolves c (path_pop file) q0 t0 -> leading line ->
  import_in c file pre (line :: ls) n l t <->
  (n = List.length pre /\ l = line /\ t = t0) \/ import_in c file (pre ++ [line]) ls n l t.
Proof.
  intros Q R Le. unfold import_in. split.
  - intros (q & [|k] & -> & A & B & C & D); cbn in A.
    + inversion A; subst. left. split; [lia|]. split; auto.
      assert (q = q0) as ->.
      { destruct Q as (r1 & E1 & N1), C as (r2 & E2 & N2). rewrite E1 in E2. apply sapp_inj_l in E2.
        clear - E2 N1 N2.
        assert (X : rfind quote (q0 +++ String quote r1) = Some (String.length q0)) by (apply rfind_Some; eauto).
        assert (Y : rfind quote (q +++ String quote r2) = Some (String.length q)) by (apply rfind_Some; eauto).
        rewrite E2 in X. rewrite X in Y. inversion Y as [L].
        apply (f_equal (take (String.length q))) in E2. rewrite take_app in E2. rewrite <- L in E2 at 1.
        rewrite take_app in E2. auto. }
      destruct (resolves_fun c (path_pop file) q0) as (u & _ & U). rewrite (U _ R). apply U. auto.
    + right. exists q, k. rewrite app_length. cbn. split; [lia|]. split; auto. split; auto.
      intros j l' L. apply (B (S j) l'). lia.
  - intros [(-> & -> & ->)|(q & k & -> & A & B & C & D)].
    + exists q0, 0. split; [lia|]. split; auto. split; auto. intros j l' L. lia.
    + exists q, (S k). rewrite app_length. cbn. split; [lia|]. split; auto. split; auto.
      intros [|j] l' L; cbn; [intros H; inversion H; subst; auto|]. apply B. lia.
Qed.
Lemma open_in_cons line ls : leading line -> ~ unclosed line -> open_in (line :: ls) -> open_in ls.
Proof.
  intros Le Nu ([|k] & l & A & B & U); cbn in A; [inversion A; subst; contradiction|].
  exists k, l. split; auto. split; auto. intros j l' L. apply (B (S j) l'). lia.
Qed.
Lemma open_in_up line ls : leading line -> open_in ls -> open_in (line :: ls).
Proof.
  intros Le (k & l & A & B & U). exists (S k), l. split; auto. split; auto.
  intros [|j] l' L; cbn; [intros H; inversion H; subst; auto|]. apply B. lia.
Qed.
