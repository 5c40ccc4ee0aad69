(** Facts about reading JSON texts: UTF-8, escapes, values. *)
From Verif Require Export TextFacts ArgsFacts.
Local Open Scope N_scope.

Lemma code_octet n : n < 256 -> code (ascii_of_N n) = n.
Proof. intros L. unfold code. apply N_ascii_embedding, L. Qed.
Lemma ascii_code c : ascii_of_N (code c) = c.
Proof. apply ascii_N_embedding. Qed.

(** ** The check of UTF-8 *)
Lemma valid_char n u s : scalar_value n -> encoded n u -> utf8_valid (u +++ s) = utf8_valid s.
Proof.
  intros V E. destruct E as [n L|n a b (-> & B & L)|n a b c (-> & B & C & L)|n a b c d (-> & B & C & D & L)]; cbn [octet String.append utf8_valid].
  - rewrite code_octet by lia. replace (n <? 128) with true by (symmetry; apply N.ltb_lt; lia). reflexivity.
  - unfold in_range, tail_byte. rewrite !code_octet by lia.
    replace (192 + a <? 128) with false by (symmetry; apply N.ltb_ge; lia).
    replace (194 <=? 192 + a) with true by (symmetry; apply N.leb_le; lia). replace (192 + a <=? 223) with true by (symmetry; apply N.leb_le; lia).
    replace (128 <=? 128 + b) with true by (symmetry; apply N.leb_le; lia). replace (128 + b <=? 191) with true by (symmetry; apply N.leb_le; lia).
    reflexivity.
  - unfold in_range, tail_byte. rewrite !code_octet by lia.
    replace (224 + a <? 128) with false by (symmetry; apply N.ltb_ge; lia).
    replace (224 + a <=? 223) with false by (symmetry; apply N.leb_gt; lia). rewrite andb_false_r.
    replace (224 <=? 224 + a) with true by (symmetry; apply N.leb_le; lia). replace (224 + a <=? 239) with true by (symmetry; apply N.leb_le; lia).
    replace (128 <=? 128 + c) with true by (symmetry; apply N.leb_le; lia). replace (128 + c <=? 191) with true by (symmetry; apply N.leb_le; lia).
    cbn [andb]. unfold scalar_value in V.
    replace ((if 224 + a =? 224 then 160 else 128) <=? 128 + b) with true
      by (symmetry; apply N.leb_le; destruct (N.eqb_spec (224 + a) 224); lia).
    replace (128 + b <=? (if 224 + a =? 237 then 159 else 191)) with true
      by (symmetry; apply N.leb_le; destruct (N.eqb_spec (224 + a) 237); lia).
    reflexivity.
  - unfold in_range, tail_byte. rewrite !code_octet by lia.
    replace (240 + a <? 128) with false by (symmetry; apply N.ltb_ge; lia).
    replace (240 + a <=? 223) with false by (symmetry; apply N.leb_gt; lia). rewrite andb_false_r.
    replace (240 + a <=? 239) with false by (symmetry; apply N.leb_gt; lia). rewrite andb_false_r.
    replace (240 <=? 240 + a) with true by (symmetry; apply N.leb_le; lia). replace (240 + a <=? 244) with true by (symmetry; apply N.leb_le; lia).
    replace (128 <=? 128 + c) with true by (symmetry; apply N.leb_le; lia). replace (128 + c <=? 191) with true by (symmetry; apply N.leb_le; lia).
    replace (128 <=? 128 + d) with true by (symmetry; apply N.leb_le; lia). replace (128 + d <=? 191) with true by (symmetry; apply N.leb_le; lia).
    cbn [andb].
    replace ((if 240 + a =? 240 then 144 else 128) <=? 128 + b) with true
      by (symmetry; apply N.leb_le; destruct (N.eqb_spec (240 + a) 240); lia).
    replace (128 + b <=? (if 240 + a =? 244 then 143 else 191)) with true
      by (symmetry; apply N.leb_le; destruct (N.eqb_spec (240 + a) 244); lia).
    reflexivity.
Qed.
Lemma unicode_valid s : unicode s -> utf8_valid s = true.
Proof. induction 1 as [|n u s V E S IH]; auto. rewrite (valid_char n u s V E). exact IH. Qed.
Lemma enc1_of a : code a < 128 -> encoded (code a) (String a "").
Proof. intros L. pose proof (enc1 _ L) as E. unfold octet in E. rewrite ascii_code in E. exact E. Qed.
Lemma octet_of k a : k <= code a -> octet (k + (code a - k)) = String a "".
Proof. intros L. unfold octet. replace (k + (code a - k)) with (code a) by lia. rewrite ascii_code. auto. Qed.
Lemma range_spec lo hi c : in_range lo hi c = true <-> lo <= code c <= hi.
Proof. unfold in_range. rewrite andb_true_iff, !N.leb_le. tauto. Qed.
Lemma tail_spec c : tail_byte c = true <-> 128 <= code c <= 191.
Proof. apply range_spec. Qed.
Lemma valid_unicode : forall k s, (String.length s <= k)%nat -> utf8_valid s = true -> unicode s.
Proof.
  induction k as [|k IH]; intros s L V.
  { destruct s; [constructor|cbn in L; lia]. }
  destruct s as [|a r]; [constructor|]. cbn [utf8_valid] in V. cbn [String.length] in L.
  destruct (N.ltb_spec (code a) 128) as [A|A].
  { apply (uni_char (code a) (String a "") r); [left; lia|apply enc1_of, A|]. apply IH; auto; lia. }
  destruct (in_range 194 223 a) eqn:B2.
  { apply range_spec in B2. destruct r as [|b r']; [discriminate|]. cbn [String.length] in L. apply andb_true_iff in V. destruct V as [T V]. apply tail_spec in T.
    set (x := code a - 192). set (y := code b - 128).
    apply (uni_char (x * 64 + y) (String a (String b "")) r'); [left; lia| |apply IH; auto; lia].
    pose proof (enc2 (x * 64 + y) x y ltac:(lia)) as E. unfold x, y in E. rewrite !octet_of in E by lia. exact E. }
  destruct (in_range 224 239 a) eqn:B3.
  { apply range_spec in B3. destruct r as [|b [|c r']]; try discriminate. cbn [String.length] in L. rewrite !andb_true_iff in V. destruct V as [[Tb T] V].
    apply tail_spec in T. apply range_spec in Tb.
    set (x := code a - 224). set (y := code b - 128). set (z := code c - 128).
    assert (R : (2048 <= (x * 64 + y) * 64 + z < 65536) /\ ((x * 64 + y) * 64 + z < 55296 \/ 57344 <= (x * 64 + y) * 64 + z) /\ 128 <= code b /\ y < 64).
    { destruct (N.eqb_spec (code a) 224); destruct (N.eqb_spec (code a) 237); lia. }
    apply (uni_char ((x * 64 + y) * 64 + z) (String a (String b (String c ""))) r'); [unfold scalar_value; lia| |apply IH; auto; lia].
    pose proof (enc3 ((x * 64 + y) * 64 + z) x y z ltac:(lia)) as E. unfold x, y, z in E. rewrite !octet_of in E by lia. exact E. }
  destruct (in_range 240 244 a) eqn:B4; [|discriminate].
  apply range_spec in B4. destruct r as [|b [|c [|d r']]]; try discriminate. cbn [String.length] in L. rewrite !andb_true_iff in V. destruct V as [[[Tb T] Td] V].
  apply tail_spec in T, Td. apply range_spec in Tb.
  set (x := code a - 240). set (y := code b - 128). set (z := code c - 128). set (w := code d - 128).
  assert (R : (65536 <= ((x * 64 + y) * 64 + z) * 64 + w < 1114112) /\ 128 <= code b /\ y < 64).
  { destruct (N.eqb_spec (code a) 240); destruct (N.eqb_spec (code a) 244); lia. }
  apply (uni_char (((x * 64 + y) * 64 + z) * 64 + w) (String a (String b (String c (String d "")))) r'); [unfold scalar_value; lia| |apply IH; auto; lia].
  pose proof (enc4 (((x * 64 + y) * 64 + z) * 64 + w) x y z w ltac:(lia)) as E. unfold x, y, z, w in E. rewrite !octet_of in E by lia. exact E.
Qed.
Lemma utf8_valid_spec s : utf8_valid s = true <-> unicode s.
Proof. split; [apply (valid_unicode (String.length s)); auto|apply unicode_valid]. Qed.

(** ** The encoder *)
Lemma divmod64 a b : b < 64 -> (a * 64 + b) / 64 = a /\ (a * 64 + b) mod 64 = b.
Proof.
  intros B. rewrite N.add_comm. split.
  - rewrite N.div_add by lia. rewrite N.div_small by auto. lia.
  - rewrite N.mod_add by lia. apply N.mod_small, B.
Qed.
Lemma div_4096 n : n / 4096 = n / 64 / 64.
Proof. rewrite N.div_div by lia. reflexivity. Qed.
Lemma div_262144 n : n / 262144 = n / 64 / 64 / 64.
Proof. rewrite !N.div_div by lia. reflexivity. Qed.
Lemma encoded_utf8 n u : encoded n u -> u = utf8 n.
Proof.
  intros E. unfold utf8. destruct E as [n L|n a b (-> & B & L)|n a b c (-> & B & C & L)|n a b c d (-> & B & C & D & L)].
  - replace (n <? 128) with true by (symmetry; apply N.ltb_lt; lia). reflexivity.
  - replace (a * 64 + b <? 128) with false by (symmetry; apply N.ltb_ge; lia). replace (a * 64 + b <? 2048) with true by (symmetry; apply N.ltb_lt; lia).
    destruct (divmod64 a b B) as [-> ->]. reflexivity.
  - set (n := (a * 64 + b) * 64 + c) in *. replace (n <? 128) with false by (symmetry; apply N.ltb_ge; lia). replace (n <? 2048) with false by (symmetry; apply N.ltb_ge; lia).
    replace (n <? 65536) with true by (symmetry; apply N.ltb_lt; lia). rewrite div_4096. unfold n.
    destruct (divmod64 (a * 64 + b) c C) as [-> ->]. destruct (divmod64 a b B) as [-> ->]. reflexivity.
  - set (n := ((a * 64 + b) * 64 + c) * 64 + d) in *. replace (n <? 128) with false by (symmetry; apply N.ltb_ge; lia). replace (n <? 2048) with false by (symmetry; apply N.ltb_ge; lia).
    replace (n <? 65536) with false by (symmetry; apply N.ltb_ge; lia). rewrite div_262144, div_4096. unfold n.
    destruct (divmod64 ((a * 64 + b) * 64 + c) d D) as [-> ->]. destruct (divmod64 (a * 64 + b) c C) as [-> ->]. destruct (divmod64 a b B) as [-> ->]. reflexivity.
Qed.
Lemma utf8_encoded n : n < 1114112 -> encoded n (utf8 n).
Proof.
  intros L. unfold utf8. destruct (N.ltb_spec n 128) as [A|A]; [apply enc1, A|].
  pose proof (N.div_mod n 64 ltac:(lia)) as E1. pose proof (N.mod_lt n 64 ltac:(lia)) as M1.
  destruct (N.ltb_spec n 2048) as [B|B]; [apply enc2; lia|].
  pose proof (N.div_mod (n / 64) 64 ltac:(lia)) as E2. pose proof (N.mod_lt (n / 64) 64 ltac:(lia)) as M2.
  destruct (N.ltb_spec n 65536) as [C|C]; [rewrite div_4096; apply enc3; lia|].
  pose proof (N.div_mod (n / 64 / 64) 64 ltac:(lia)) as E3. pose proof (N.mod_lt (n / 64 / 64) 64 ltac:(lia)) as M3.
  rewrite div_262144, div_4096. apply enc4; lia.
Qed.
Lemma encoded_spec n u : n < 1114112 -> (encoded n u <-> u = utf8 n).
Proof. intros L. split; [apply encoded_utf8|]. intros ->. apply utf8_encoded, L. Qed.

(** ** Escapes *)
Lemma hex_value_lt c n : hex_value c n -> n < 16.
Proof. unfold hex_value. lia. Qed.
Lemma hex4_spec a b c d n : hex4 a b c d = Some n <-> hex_number a b c d n.
Proof.
  unfold hex4, hex_number. split.
  - destruct (hex_digit a) as [x|] eqn:A; [|discriminate]. destruct (hex_digit b) as [y|] eqn:B; [|discriminate].
    destruct (hex_digit c) as [z|] eqn:C; [|discriminate]. destruct (hex_digit d) as [w|] eqn:D; [|discriminate].
    intros H. injection H as <-. exists x, y, z, w. rewrite <- !hex_digit_spec. repeat split; auto. lia.
  - intros (x & y & z & w & A & B & C & D & ->). rewrite <- hex_digit_spec in A, B, C, D. rewrite A, B, C, D. f_equal. lia.
Qed.
Lemma hex_number_lt a b c d n : hex_number a b c d n -> n < 65536.
Proof. intros (x & y & z & w & A & B & C & D & ->). apply hex_value_lt in A, B, C, D. lia. Qed.
Lemma low_spec n : low_surrogate n = true <-> 56320 <= n <= 57343.
Proof. unfold low_surrogate. rewrite andb_true_iff, !N.leb_le. tauto. Qed.
Lemma high_spec n : high_surrogate n = true <-> 55296 <= n <= 56319.
Proof. unfold high_surrogate. rewrite andb_true_iff, !N.leb_le. tauto. Qed.
Lemma unescape_plain c b : (code c =? 92) = false -> unescape (String c b) = option_map (String c) (unescape b).
Proof. intros P. cbn [unescape]. rewrite P. reflexivity. Qed.
Lemma unescape_short c x b : short_escape c = Some x -> unescape (String backslash (String c b)) = option_map (String x) (unescape b).
Proof. intros E. pose proof (short_escape_not_u _ _ E) as U. cbn [unescape]. change (code backslash =? 92) with true. cbn iota. rewrite U, E. reflexivity. Qed.
Lemma unescape_hex a b c d r n : hex4 a b c d = Some n -> low_surrogate n = false -> high_surrogate n = false ->
  unescape (String backslash (String "u" (String a (String b (String c (String d r)))))) = option_map (String.append (utf8 n)) (unescape r).
Proof.
  intros H Lo Hi. cbn [unescape]. change (code backslash =? 92) with true. change (code "u" =? 117) with true. cbn iota. rewrite H, Lo, Hi. reflexivity.
Qed.
Lemma unescape_pair a b c d a' b' c' d' r n m : hex4 a b c d = Some n -> high_surrogate n = true -> hex4 a' b' c' d' = Some m -> low_surrogate m = true ->
  unescape (String backslash (String "u" (String a (String b (String c (String d
    (String backslash (String "u" (String a' (String b' (String c' (String d' r))))))))))))
  = option_map (String.append (utf8 ((n - 55296) * 1024 + (m - 56320) + 65536))) (unescape r).
Proof.
  intros H Hi H' Lo'. assert (Lo : low_surrogate n = false).
  { apply high_spec in Hi. destruct (low_surrogate n) eqn:E; auto. apply low_spec in E. lia. }
  cbn [unescape]. change (code backslash =? 92) with true. change (code "u" =? 117) with true. cbn iota. rewrite H, Lo, Hi. cbn [andb].
  rewrite H', Lo'. reflexivity.
Qed.
Lemma spells_unescape b s : spells b s -> unescape b = Some s.
Proof.
  induction 1 as [|c b s P S IH|c x b s E S IH|a1 a2 a3 a4 n u b s H V E S IH|a1 a2 a3 a4 b1 b2 b3 b4 hi lo u b s H H' Lh Ll E S IH]; auto.
  - rewrite unescape_plain, IH; auto. apply plain_spec in P. tauto.
  - apply short_escape_spec in E. rewrite (unescape_short _ _ _ E), IH. auto.
  - pose proof (hex_number_lt _ _ _ _ _ H). apply hex4_spec in H. unfold scalar_value in V. rewrite (unescape_hex _ _ _ _ _ _ H), IH.
    + cbn. rewrite (encoded_utf8 _ _ E). auto.
    + destruct (low_surrogate n) eqn:X; auto. apply low_spec in X. lia.
    + destruct (high_surrogate n) eqn:X; auto. apply high_spec in X. lia.
  - apply hex4_spec in H, H'. rewrite (unescape_pair a1 a2 a3 a4 b1 b2 b3 b4 b (55296 + hi) (56320 + lo)); auto.
    + rewrite IH. cbn [option_map]. rewrite (encoded_utf8 _ _ E).
      replace ((55296 + hi - 55296) * 1024 + (56320 + lo - 56320) + 65536) with (65536 + hi * 1024 + lo) by lia. reflexivity.
    + apply high_spec. lia.
    + apply low_spec. lia.
Qed.
Lemma option_map_some {A B} (f : A -> B) o y : option_map f o = Some y -> exists x, o = Some x /\ y = f x.
Proof. destruct o as [x|]; cbn; [|discriminate]. intros H. injection H as <-. eauto. Qed.
Lemma body_after_u a b c d r : body (String backslash (String "u" (String a (String b (String c (String d r)))))) -> body r.
Proof.
  intros B. inversion B as [|c0 b0 P B0|c0 x b0 E B0|a1 a2 a3 a4 b0 H1 H2 H3 H4 B0]; subst; auto.
  - destruct P as (_ & _ & P). exfalso. apply P. reflexivity.
  - apply short_escape_spec in E. discriminate.
Qed.
Lemma unescape_spells : forall k b s, (String.length b <= k)%nat -> body b -> unescape b = Some s -> spells b s.
Proof.
  induction k as [|k IH]; intros b s L B U.
  { destruct b; [|cbn in L; lia]. injection U as <-. constructor. }
  inversion B as [|c b0 P B0|c x b0 E B0|a1 a2 a3 a4 b0 H1 H2 H3 H4 B0]; subst; cbn [String.length] in L.
  - injection U as <-. constructor.
  - rewrite unescape_plain in U by (apply plain_spec in P; tauto). apply option_map_some in U. destruct U as (s' & U & ->).
    constructor; auto. apply IH; auto. lia.
  - pose proof E as E'. apply short_escape_spec in E'. rewrite (unescape_short _ _ _ E') in U. apply option_map_some in U. destruct U as (s' & U & ->).
    constructor; auto. apply IH; auto. lia.
  - destruct (hex4 a1 a2 a3 a4) as [n|] eqn:X.
    2: { cbn [unescape] in U. change (code backslash =? 92) with true in U. change (code "u" =? 117) with true in U. cbn iota in U. rewrite X in U. discriminate. }
    pose proof X as X'. apply hex4_spec in X'. pose proof (hex_number_lt _ _ _ _ _ X') as N.
    destruct (low_surrogate n) eqn:Lo.
    { cbn [unescape] in U. change (code backslash =? 92) with true in U. change (code "u" =? 117) with true in U. cbn iota in U. rewrite X, Lo in U. discriminate. }
    destruct (high_surrogate n) eqn:Hi.
    + cbn [unescape] in U. change (code backslash =? 92) with true in U. change (code "u" =? 117) with true in U. cbn iota in U. rewrite X, Lo, Hi in U.
      destruct b0 as [|x' [|y' [|b1 [|b2 [|b3 [|b4 b]]]]]]; try discriminate.
      destruct ((code x' =? 92) && (code y' =? 117)) eqn:Q; [|discriminate]. apply andb_true_iff in Q. rewrite !N.eqb_eq in Q. destruct Q as [Q1 Q2].
      assert (Ex : x' = backslash) by (apply code_inj; rewrite Q1; reflexivity). assert (Ey : y' = "u"%char) by (apply code_inj; rewrite Q2; reflexivity). subst x' y'.
      destruct (hex4 b1 b2 b3 b4) as [m|] eqn:Y; [|discriminate]. destruct (low_surrogate m) eqn:Lm; [|discriminate].
      apply option_map_some in U. destruct U as (s' & U & ->). apply high_spec in Hi. apply low_spec in Lm. apply hex4_spec in Y.
      apply (sp_pair a1 a2 a3 a4 b1 b2 b3 b4 (n - 55296) (m - 56320)).
      * replace (55296 + (n - 55296)) with n by lia. exact X'.
      * replace (56320 + (m - 56320)) with m by lia. exact Y.
      * lia.
      * lia.
      * replace (65536 + (n - 55296) * 1024 + (m - 56320)) with ((n - 55296) * 1024 + (m - 56320) + 65536) by lia. apply utf8_encoded. lia.
      * apply IH; auto; [cbn [String.length] in L; lia|]. apply body_after_u in B0. exact B0.
    + rewrite (unescape_hex _ _ _ _ _ _ X Lo Hi) in U. apply option_map_some in U. destruct U as (s' & U & ->).
      apply (sp_hex a1 a2 a3 a4 n); auto.
      * unfold scalar_value. destruct (N.ltb_spec n 55296); [auto|]. right. split; [|lia].
        destruct (N.leb_spec n 56319); [exfalso; assert (high_surrogate n = true) by (apply high_spec; lia); congruence|].
        destruct (N.leb_spec n 57343); [exfalso; assert (low_surrogate n = true) by (apply low_spec; lia); congruence|]. lia.
      * apply utf8_encoded. lia.
      * apply IH; auto. lia.
Qed.
Lemma json_string_spec b s : body b -> (json_string b = Some s <-> string_of_body b s).
Proof.
  intros B. unfold json_string, string_of_body. split.
  - destruct (unescape b) as [s'|] eqn:U; [|discriminate]. destruct (utf8_valid s') eqn:V; [|discriminate]. intros H. injection H as <-.
    split; [apply (unescape_spells (String.length b)); auto|apply utf8_valid_spec, V].
  - intros [S V]. apply spells_unescape in S. apply utf8_valid_spec in V. rewrite S, V. reflexivity.
Qed.
Lemma json_string_none b : body b -> (json_string b = None <-> forall s, ~ string_of_body b s).
Proof.
  intros B. split.
  - intros H s S. apply (json_string_spec b s B) in S. congruence.
  - intros H. destruct (json_string b) as [s|] eqn:E; auto. apply json_string_spec in E; auto. exfalso. apply (H s E).
Qed.

(** ** Values *)
Inductive well : jtree -> Prop :=
| well_null : well RNull
| well_bool b : well (RBool b)
| well_num t : t <> "" -> well (RNum t)
| well_str b : body b -> well (RStr b)
| well_arr l : Forall well l -> well (RArr l)
| well_obj l : Forall (fun x => body (fst x) /\ well (snd x)) l -> well (RObj l).
Lemma grammar_well :
  (forall r t, jtext r t -> well r) /\ (forall l b, elements l b -> Forall well l) /\
  (forall l b, members l b -> Forall (fun x => body (fst x) /\ well (snd x)) l).
Proof.
  apply grammar_ind; intros; try (constructor; auto; fail).
  - constructor. intros ->. apply num_text_spec in H. destruct H as (c & r & p & E & _). discriminate.
Qed.
Definition cook_members : list (string * jtree) -> option (list (string * json)) :=
  fix go l := match l with
              | [] => Some []
              | (k, v) :: l' => match json_string k, go l' with Some k', Some m => Some ((k', cook v) :: m) | _, _ => None end
              end.
Lemma cook_obj l : cook (RObj l) = match cook_members l with Some m => JObj m | None => JBad end.
Proof. reflexivity. Qed.
Lemma number_value t j : t <> "" -> (json_number t = j <-> stands_for (RNum t) j).
Proof.
  intros N. unfold json_number. destruct (read_digits 0 t) as [n|] eqn:R.
  - destruct (read_decimal (String.length t) t n) as [D B]; auto. split.
    + intros <-. constructor; auto. rewrite N2Nat.id. exact B.
    + intros H. inversion H as [| |t' m D' B'|t' F| | | | |]; subst.
      * pose proof (decimal_read _ _ D' B') as R'. rewrite R in R'. injection R' as ->. rewrite Nat2N.id. reflexivity.
      * exfalso. apply (F _ D). rewrite N2Nat.id. exact B.
  - split.
    + intros <-. constructor. intros n D B. apply (decimal_read _ _ D) in B. congruence.
    + intros H. inversion H as [| |t' m D' B'|t' F| | | | |]; subst; auto. apply (decimal_read _ _ D') in B'. congruence.
Qed.
Lemma cook_spec : forall r j, well r -> (cook r = j <-> stands_for r j).
Proof.
  induction r as [|b|t|b|l F|l F] using jtree_ind'; intros j W; inversion W; subst.
  - split; [intros <-; constructor|intros H; inversion H; auto].
  - split; [intros <-; constructor|intros H; inversion H; auto].
  - apply number_value; auto.
  - cbn [cook]. split.
    + destruct (json_string b) as [s|] eqn:E; intros <-; constructor; [apply json_string_spec|apply json_string_none]; auto.
    + intros H. inversion H as [| | | |b' s S|b' N| | |]; subst; [apply json_string_spec in S|apply json_string_none in N]; auto; [rewrite S|rewrite N]; auto.
  - cbn [cook]. split.
    + intros <-. constructor. clear W. induction l as [|r l IH]; cbn; constructor.
      * inversion F as [|? ? Fr Fl]; subst. inversion H0; subst. apply Fr; auto.
      * inversion F as [|? ? Fr Fl]; subst. inversion H0; subst. apply IH; auto.
    + intros H. inversion H as [| | | | | |l' m A| |]; subst. f_equal. clear W H. revert F H0.
      induction A as [|r j' l m S A IH]; intros F Wl; auto. cbn. inversion F as [|? ? Fr Fl]; subst. inversion Wl; subst. f_equal; [apply Fr; auto|apply IH; auto].
  - rewrite cook_obj. clear W. rename H0 into W.
    assert (Good : forall m, cook_members l = Some m <-> Forall2 (fun x y => string_of_body (fst x) (fst y) /\ stands_for (snd x) (snd y)) l m).
    { induction l as [|[k v] l IH]; intros m.
      - cbn. split; [intros H; injection H as <-; constructor|intros H; inversion H; auto].
      - inversion F as [|? ? Fr Fl]; subst. inversion W as [|? ? [Bk Wv] Wl]; subst. cbn [fst snd] in *. cbn [cook_members]. fold cook_members. split.
        + destruct (json_string k) as [k'|] eqn:K; [|discriminate]. destruct (cook_members l) as [m'|] eqn:M; [|discriminate]. intros H. injection H as <-.
          constructor; [|apply IH; auto]. cbn. split; [apply json_string_spec; auto|apply Fr; auto].
        + intros H. inversion H as [|x [k' v'] l' m' [A B] C]; subst. cbn [fst snd] in *. apply json_string_spec in A; auto. rewrite A.
          apply IH in C; auto. rewrite C. apply Fr in B; auto. rewrite B. reflexivity. }
    assert (Bad : cook_members l = None <-> exists k v, In (k, v) l /\ forall s, ~ string_of_body k s).
    { clear Good F. induction l as [|[k v] l IH].
      - cbn. split; [discriminate|intros (k & v & [] & _)].
      - inversion W as [|? ? [Bk Wv] Wl]; subst. cbn [fst snd] in *. cbn [cook_members]. fold cook_members. split.
        + destruct (json_string k) as [k'|] eqn:K.
          * destruct (cook_members l) as [m'|] eqn:M; [discriminate|]. intros _. destruct IH as [IH _]; auto. destruct (IH eq_refl) as (k1 & v1 & I & N). exists k1, v1. cbn. auto.
          * intros _. exists k, v. split; [cbn; auto|]. apply json_string_none; auto.
        + intros (k1 & v1 & [E|I] & N).
          * injection E as -> ->. apply json_string_none in N; auto. rewrite N. auto.
          * destruct IH as [_ IH]; auto. rewrite IH by eauto. destruct (json_string k); auto. }
    split.
    + destruct (cook_members l) as [m|] eqn:M; intros <-.
      * constructor. apply Good. auto.
      * destruct Bad as [Bad _]. destruct (Bad eq_refl) as (k & v & I & N). apply (sf_badkey l k v); auto.
    + intros H. inversion H as [| | | | | | |l' m A|l' k v I N]; subst.
      * apply Good in A. rewrite A. auto.
      * destruct Bad as [_ Bad]. rewrite Bad by eauto. auto.
Qed.
Lemma read_json_spec text j : read_json text = Some j <-> text_holds text j.
Proof.
  unfold read_json, text_holds. split.
  - intros H. apply option_map_some in H. destruct H as (r & P & ->). apply parse_exact in P. exists r. split; auto.
    destruct P as (a & t & z & _ & _ & T & _). apply cook_spec; auto. apply grammar_well in T. exact T.
  - intros (r & D & S). pose proof D as D'. apply parse_exact in D'. rewrite D'. cbn. f_equal. destruct D as (a & t & z & _ & _ & T & _).
    apply cook_spec; auto. apply grammar_well in T. exact T.
Qed.
