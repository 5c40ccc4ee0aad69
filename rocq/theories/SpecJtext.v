(** Specification side for JSON texts: the grammar of RFC 8259 on strings, what escapes stand for, UTF-8. *)
From Verif Require Export Json SpecArgs SpecJson.
From Coq Require Export NArith.

Fixpoint all (P : ascii -> Prop) (s : string) : Prop :=
  match s with EmptyString => True | String c r => P c /\ all P r end.
Definition chr (n : nat) : ascii := ascii_of_nat n.
Definition backslash : ascii := chr 92.
Definition quote_mark : ascii := chr 34.
Definition just (c : ascii) : string := String c "".

(** White space: space, tab, line feed, carriage return *)
Definition blank_text (s : string) : Prop := all (fun c => In (nat_of_ascii c) [32; 9; 10; 13]) s.

(** Numbers *)
Definition digit_char (c : ascii) : Prop := 48 <= nat_of_ascii c <= 57.
Definition digits (s : string) : Prop := s <> "" /\ all digit_char s.
Definition int_part (s : string) : Prop :=
  s = "0" \/ exists c r, s = String c r /\ digit_char c /\ c <> "0"%char /\ all digit_char r.
Definition frac_part (s : string) : Prop := s = "" \/ exists ds, s = "." +++ ds /\ digits ds.
Definition expo_part (s : string) : Prop :=
  s = "" \/ exists e sign ds, s = String e (sign +++ ds) /\ (e = "e"%char \/ e = "E"%char) /\
             (sign = "" \/ sign = "+" \/ sign = "-") /\ digits ds.
Definition number (t : string) : Prop :=
  exists sign int frac expo, t = sign +++ int +++ frac +++ expo /\
    (sign = "" \/ sign = "-") /\ int_part int /\ frac_part frac /\ expo_part expo.

(** Strings as written between the quotation marks *)
Definition hex_value (c : ascii) (n : N) : Prop :=
  let k := N.of_nat (nat_of_ascii c) in
  ((48 <= k <= 57 /\ n = k - 48) \/ (65 <= k <= 70 /\ n = k - 55) \/ (97 <= k <= 102 /\ n = k - 87))%N.
Definition hex_char (c : ascii) : Prop := exists n, hex_value c n.
(** After a backslash: quotation mark, backslash, slash, b, f, n, r, t *)
Definition escapes : list (ascii * ascii) :=
  [(chr 34, chr 34); (chr 92, chr 92); (chr 47, chr 47); ("b"%char, chr 8); ("f"%char, chr 12); ("n"%char, chr 10);
   ("r"%char, chr 13); ("t"%char, chr 9)].
Definition plain_char (c : ascii) : Prop := 32 <= nat_of_ascii c /\ c <> quote_mark /\ c <> backslash.
Inductive body : string -> Prop :=
| body_end : body ""
| body_plain c b : plain_char c -> body b -> body (String c b)
| body_escape c x b : In (c, x) escapes -> body b -> body (String backslash (String c b))
| body_hex a1 a2 a3 a4 b : hex_char a1 -> hex_char a2 -> hex_char a3 -> hex_char a4 -> body b ->
    body (String backslash (String "u" (String a1 (String a2 (String a3 (String a4 b)))))).

(** The grammar.  [jtext r t]: the text [t], without white space around it, is the value [r] *)
Inductive jtext : jtree -> string -> Prop :=
| wr_null : jtext RNull "null"
| wr_true : jtext (RBool true) "true"
| wr_false : jtext (RBool false) "false"
| wr_num t : number t -> jtext (RNum t) t
| wr_str b : body b -> jtext (RStr b) (just quote_mark +++ b +++ just quote_mark)
| wr_arr0 w : blank_text w -> jtext (RArr []) ("[" +++ w +++ "]")
| wr_arr l s : elements l s -> jtext (RArr l) ("[" +++ s +++ "]")
| wr_obj0 w : blank_text w -> jtext (RObj []) ("{" +++ w +++ "}")
| wr_obj l s : members l s -> jtext (RObj l) ("{" +++ s +++ "}")
with elements : list jtree -> string -> Prop :=
| el_one r t a z : blank_text a -> jtext r t -> blank_text z -> elements [r] (a +++ t +++ z)
| el_more r t a z l s : blank_text a -> jtext r t -> blank_text z -> elements l s -> elements (r :: l) (a +++ t +++ z +++ "," +++ s)
with members : list (string * jtree) -> string -> Prop :=
| mb_one k r t a b c z : blank_text a -> body k -> blank_text b -> blank_text c -> jtext r t -> blank_text z ->
    members [(k, r)] (a +++ just quote_mark +++ k +++ just quote_mark +++ b +++ ":" +++ c +++ t +++ z)
| mb_more k r t a b c z l s : blank_text a -> body k -> blank_text b -> blank_text c -> jtext r t -> blank_text z -> members l s ->
    members ((k, r) :: l) (a +++ just quote_mark +++ k +++ just quote_mark +++ b +++ ":" +++ c +++ t +++ z +++ "," +++ s).
Definition json_document (r : jtree) (s : string) : Prop :=
  exists a t z, s = a +++ t +++ z /\ blank_text a /\ jtext r t /\ blank_text z.

(** Unicode: scalar values and their encodings in bytes *)
Definition scalar_value (n : N) : Prop := (n < 55296 \/ 57344 <= n < 1114112)%N.
Definition octet (n : N) : string := String (ascii_of_N n) "".
Inductive encoded : N -> string -> Prop :=
| enc1 n : (n < 128)%N -> encoded n (octet n)
| enc2 n a b : (n = a * 64 + b /\ b < 64 /\ 128 <= n < 2048)%N -> encoded n (octet (192 + a) +++ octet (128 + b))
| enc3 n a b c : (n = (a * 64 + b) * 64 + c /\ b < 64 /\ c < 64 /\ 2048 <= n < 65536)%N ->
    encoded n (octet (224 + a) +++ octet (128 + b) +++ octet (128 + c))
| enc4 n a b c d : (n = ((a * 64 + b) * 64 + c) * 64 + d /\ b < 64 /\ c < 64 /\ d < 64 /\ 65536 <= n < 1114112)%N ->
    encoded n (octet (240 + a) +++ octet (128 + b) +++ octet (128 + c) +++ octet (128 + d)).
Inductive unicode : string -> Prop :=
| uni_end : unicode ""
| uni_char n u s : scalar_value n -> encoded n u -> unicode s -> unicode (u +++ s).

(** What a body stands for *)
Definition hex_number (a1 a2 a3 a4 : ascii) (n : N) : Prop :=
  exists x1 x2 x3 x4, hex_value a1 x1 /\ hex_value a2 x2 /\ hex_value a3 x3 /\ hex_value a4 x4 /\
    n = (x1 * 4096 + x2 * 256 + x3 * 16 + x4)%N.
Inductive spells : string -> string -> Prop :=
| sp_end : spells "" ""
| sp_plain c b s : plain_char c -> spells b s -> spells (String c b) (String c s)
| sp_escape c x b s : In (c, x) escapes -> spells b s -> spells (String backslash (String c b)) (String x s)
| sp_hex a1 a2 a3 a4 n u b s : hex_number a1 a2 a3 a4 n -> scalar_value n -> encoded n u -> spells b s ->
    spells (String backslash (String "u" (String a1 (String a2 (String a3 (String a4 b)))))) (u +++ s)
| sp_pair a1 a2 a3 a4 b1 b2 b3 b4 hi lo u b s :
    hex_number a1 a2 a3 a4 (55296 + hi) -> hex_number b1 b2 b3 b4 (56320 + lo) -> (hi < 1024)%N -> (lo < 1024)%N ->
    encoded (65536 + hi * 1024 + lo) u -> spells b s ->
    spells (String backslash (String "u" (String a1 (String a2 (String a3 (String a4
           (String backslash (String "u" (String b1 (String b2 (String b3 (String b4 b)))))))))))) (u +++ s).
(** A string that can be decoded *)
Definition string_of_body (b s : string) : Prop := spells b s /\ unicode s.

(** The value as it is decoded *)
Inductive stands_for : jtree -> json -> Prop :=
| sf_null : stands_for RNull JNull
| sf_bool b : stands_for (RBool b) (JBool b)
| sf_nat t n : decimal t n -> (N.of_nat n < 2 ^ 64)%N -> stands_for (RNum t) (JNat n)
| sf_num t : (forall n, decimal t n -> ~ (N.of_nat n < 2 ^ 64)%N) -> stands_for (RNum t) (JNum t)
| sf_str b s : string_of_body b s -> stands_for (RStr b) (JStr s)
| sf_bad b : (forall s, ~ string_of_body b s) -> stands_for (RStr b) JBad
| sf_arr l m : Forall2 stands_for l m -> stands_for (RArr l) (JArr m)
| sf_obj l m : Forall2 (fun x y => string_of_body (fst x) (fst y) /\ stands_for (snd x) (snd y)) l m -> stands_for (RObj l) (JObj m)
| sf_badkey l k v : In (k, v) l -> (forall s, ~ string_of_body k s) -> stands_for (RObj l) JBad.

(** The text holds this JSON value *)
Definition text_holds (text : string) (j : json) : Prop := exists r, json_document r text /\ stands_for r j.

(** Types of fields wrapped at most 119 times *)
Inductive levels : jtype -> nat -> Prop :=
| lv_named k n : levels (JT k n None) 1
| lv_wrapped k n t m : levels t m -> levels (JT k n (Some t)) (S m).
Definition fits (js : jschema) : Prop :=
  forall t l f m, In t js -> (jt_fields t = Some l \/ jt_input_fields t = Some l) -> In f l -> levels (jf_type f) m -> m <= 120.

(** Values that some text holds: strings in UTF-8, naturals of 64 bits, other numbers by the grammar *)
Inductive writable : json -> Prop :=
| wt_null : writable JNull
| wt_bool b : writable (JBool b)
| wt_nat n : (N.of_nat n < 2 ^ 64)%N -> writable (JNat n)
| wt_num t : number t -> (forall n, decimal t n -> ~ (N.of_nat n < 2 ^ 64)%N) -> writable (JNum t)
| wt_str s : unicode s -> writable (JStr s)
| wt_arr l : Forall writable l -> writable (JArr l)
| wt_obj l : Forall (fun x => unicode (fst x) /\ writable (snd x)) l -> writable (JObj l).
