(** Specification side for texts of GraphQL documents, after the GraphQL specification (October 2021), sections 2
    and appendix B: ignored text, tokens, grammar; with the deviations of graphql-parser written out. *)
From Verif Require Export Gql SpecJtext.

(** ** Ignored text.  [gap p w q]: the ignored text [w] leads from position [p] to [q] *)
Definition line_end (c : ascii) : Prop := c = ascii_of_nat 10 \/ c = ascii_of_nat 13.
Definition byte_order_mark : string := String (ascii_of_nat 239) (String (ascii_of_nat 187) (String (ascii_of_nat 191) "")).
Definition to_right (n : nat) (p : pos) : pos := {| pos_line := pos_line p; pos_col := pos_col p + n |}.
Definition to_below (p : pos) : pos := {| pos_line := pos_line p + 1; pos_col := 1 |}.
Inductive gap : pos -> string -> pos -> Prop :=
| gap_nil p : gap p "" p
| gap_space p w q : gap (to_right 1 p) w q -> gap p (String " " w) q
| gap_comma p w q : gap (to_right 1 p) w q -> gap p (String "," w) q
| gap_tab p w q : gap (to_right 8 p) w q -> gap p (String (ascii_of_nat 9) w) q
| gap_newline p w q : gap (to_below p) w q -> gap p (String (ascii_of_nat 10) w) q
| gap_return p w q : gap p w q -> gap p (String (ascii_of_nat 13) w) q
| gap_mark p w q : gap p w q -> gap p (byte_order_mark +++ w) q
| gap_comment p b c w q : all (fun d => ~ line_end d) b -> line_end c -> gap (to_below p) w q ->
    gap p (String "#" (b +++ String c w)) q.
(** At the end of the text a comment needs no end *)
Definition last_gap (p : pos) (w : string) : Prop :=
  (exists q, gap p w q) \/ (exists a b q, w = a +++ String "#" b /\ gap p a q /\ all (fun d => ~ line_end d) b).

(** ** Tokens.  [written ck t x r]: [t] may be written as [x] when [r] follows *)
Definition name_begin (c : ascii) : Prop :=
  let n := nat_of_ascii c in n = 95 \/ 97 <= n <= 122 \/ 65 <= n <= 90.
Definition name_part (c : ascii) : Prop := name_begin c \/ 48 <= nat_of_ascii c <= 57.
Definition first_is (P : ascii -> Prop) (s : string) : Prop := match s with EmptyString => False | String c _ => P c end.
(** Ignored characters and punctuators (other than the dots) *)
Definition delimiter (c : ascii) : Prop :=
  In c [" "; "!"; "#"; "$"; "&"; "("; ")"; ","; ":"; "="; "@"; "["; "]"; "{"; "|"; "}"]%char \/ c = ascii_of_nat 9 \/ line_end c.
(** Between single quotes: no line break, quotes and backslashes only after a backslash *)
Inductive string_body : string -> Prop :=
| sb_nil : string_body ""
| sb_char c b : c <> quote_mark -> c <> backslash -> c <> ascii_of_nat 10 -> string_body b -> string_body (String c b)
| sb_escape c b : c <> ascii_of_nat 10 -> string_body b -> string_body (String backslash (String c b)).
(** Between triple quotes: these only after a backslash *)
Definition quotes3 : string := just quote_mark +++ just quote_mark +++ just quote_mark.
Definition begins (x s : string) : Prop := exists r, s = x +++ r.
Inductive block_body : string -> Prop :=
| bb_nil : block_body ""
| bb_escape b : block_body b -> block_body (String backslash (quotes3 +++ b))
| bb_char c b : ~ begins quotes3 (String c (b +++ quotes3)) -> ~ begins (String backslash quotes3) (String c (b +++ quotes3)) ->
    block_body b -> block_body (String c b).
Inductive written (ck : gql_checks) : gtoken -> string -> string -> Prop :=
| wr_punct q r : written ck (GPunct q) (punct_text q) r
| wr_name c n r : name_begin c -> all name_part n -> ~ first_is name_part r -> written ck (GName (String c n)) (String c n) r
| wr_num c n r : c = "-"%char \/ 48 <= nat_of_ascii c <= 57 -> all (fun d => ~ delimiter d) n -> r = "" \/ first_is delimiter r ->
    gk_number ck (String c n) = true -> written ck (GNum (String c n)) (String c n) r
| wr_string b r : string_body b -> gk_string ck b = true -> (b = "" -> ~ first_is (eq quote_mark) r) ->
    written ck (GString b) (just quote_mark +++ b +++ just quote_mark) r
| wr_block b r : block_body b -> written ck (GBlock b) (quotes3 +++ b +++ quotes3) r.

(** Characters of UTF-8, not bytes *)
Fixpoint letters (s : string) : nat :=
  match s with
  | EmptyString => 0
  | String c r => if (128 <=? nat_of_ascii c) && (nat_of_ascii c <=? 191) then letters r else S (letters r)
  end.
Definition lacks_line (x : string) : Prop := all (fun d => d <> ascii_of_nat 10) x.
(** Where a text ends that starts at [p] *)
Inductive spans : pos -> string -> pos -> Prop :=
| spans_line p x : lacks_line x -> spans p x (to_right (letters x) p)
| spans_lines p a b q : lacks_line a -> spans (to_below p) b q -> spans p (a +++ String (ascii_of_nat 10) b) q.

(** A text and its tokens, each with its position *)
Inductive tokens_of (ck : gql_checks) : pos -> string -> list ptok -> Prop :=
| to_end p w : last_gap p w -> tokens_of ck p w []
| to_token p w q t x q' r ts : gap p w q -> written ck t x r -> spans q x q' -> tokens_of ck q' r ts ->
    tokens_of ck p (w +++ x +++ r) ((q, t) :: ts).

(** Never more than 50 brackets open *)
Definition opens (t : ptok) : bool := match snd t with GPunct GOpen | GPunct GOpenBr | GPunct GOpenCu => true | _ => false end.
Definition closes (t : ptok) : bool := match snd t with GPunct GClose | GPunct GCloseBr | GPunct GCloseCu => true | _ => false end.
Definition at_most_open (n : nat) (ts : list ptok) : Prop :=
  forall a b, ts = a ++ b -> List.length (List.filter opens a) <= n + List.length (List.filter closes a).

(** ** Grammar, on tokens with positions *)
(** Values; [const]: without variables.  The value itself is kept as text. *)
Inductive value_toks (const : bool) : list gtoken -> Prop :=
| vt_name n : value_toks const [GName n]
| vt_num x : value_toks const [GNum x]
| vt_string x : value_toks const [GString x]
| vt_block x : value_toks const [GBlock x]
| vt_var n : const = false -> value_toks const [GPunct GDollar; GName n]
| vt_list vs : values_toks const vs -> value_toks const (GPunct GOpenBr :: vs ++ [GPunct GCloseBr])
| vt_object vs : members_toks const vs -> value_toks const (GPunct GOpenCu :: vs ++ [GPunct GCloseCu])
with values_toks (const : bool) : list gtoken -> Prop :=
| vts_nil : values_toks const []
| vts_cons v vs : value_toks const v -> values_toks const vs -> values_toks const (v ++ vs)
with members_toks (const : bool) : list gtoken -> Prop :=
| mts_nil : members_toks const []
| mts_cons n v vs : value_toks const v -> members_toks const vs -> members_toks const (GName n :: GPunct GColon :: v ++ vs).

Inductive type_toks : list gtoken -> vartype -> Prop :=
| ty_plain ts t : plain_type ts t -> type_toks ts t
| ty_non_null ts t : plain_type ts t -> type_toks (ts ++ [GPunct GBang]) (VTNonNull t)
with plain_type : list gtoken -> vartype -> Prop :=
| ty_named n : plain_type [GName n] (VTNamed n)
| ty_list ts t : type_toks ts t -> plain_type (GPunct GOpenBr :: ts ++ [GPunct GCloseBr]) (VTList t).

Definition bare (ts : list ptok) : list gtoken := List.map snd ts.
(** Items one after the other *)
Inductive series {A} (item : list ptok -> A -> Prop) : list ptok -> list A -> Prop :=
| se_nil : series item [] []
| se_cons ts a ts' l : item ts a -> series item ts' l -> series item (ts ++ ts') (a :: l).

Inductive arg_toks : list ptok -> string * string -> Prop :=
| at_arg p n p' v : value_toks false (bare v) -> arg_toks ((p, GName n) :: (p', GPunct GColon) :: v) (n, source_text (bare v)).
Inductive args_toks : list ptok -> arguments -> Prop :=
| as_none : args_toks [] []
| as_some p ts a l p' : series arg_toks ts (a :: l) -> args_toks ((p, GPunct GOpen) :: ts ++ [(p', GPunct GClose)]) (a :: l).
Inductive dir_toks : list ptok -> directive -> Prop :=
| dt_dir p p' n ts l : args_toks ts l -> dir_toks ((p, GPunct GAt) :: (p', GName n) :: ts) {| dir_name := n; dir_args := l |}.
Definition dirs_toks : list ptok -> list directive -> Prop := series dir_toks.

Inductive sel_toks : list ptok -> selection -> Prop :=
| st_field p n a args d dirs b sub : args_toks a args -> dirs_toks d dirs -> opt_set_toks b sub ->
    sel_toks ((p, GName n) :: a ++ d ++ b) (SField p None n args dirs sub)
| st_alias p n p1 p2 m a args d dirs b sub : args_toks a args -> dirs_toks d dirs -> opt_set_toks b sub ->
    sel_toks ((p, GName n) :: (p1, GPunct GColon) :: (p2, GName m) :: a ++ d ++ b) (SField p (Some n) m args dirs sub)
| st_spread p0 p n d dirs : n <> "on" -> dirs_toks d dirs -> sel_toks ((p0, GPunct GDots) :: (p, GName n) :: d) (SSpread p n dirs)
| st_on p0 p p1 c d dirs b sub : dirs_toks d dirs -> set_toks b sub ->
    sel_toks ((p0, GPunct GDots) :: (p, GName "on") :: (p1, GName c) :: d ++ b) (SInline p (Some c) dirs sub)
| st_inline p0 p t r d dirs b sub : dirs_toks d dirs -> set_toks b sub -> d ++ b = (p, t) :: r ->
    sel_toks ((p0, GPunct GDots) :: d ++ b) (SInline p None dirs sub)
with set_toks : list ptok -> list selection -> Prop :=
| ss_set p ts s l p' : sels_toks ts (s :: l) -> set_toks ((p, GPunct GOpenCu) :: ts ++ [(p', GPunct GCloseCu)]) (s :: l)
with opt_set_toks : list ptok -> list selection -> Prop :=
| os_none : opt_set_toks [] []
| os_some ts l : set_toks ts l -> opt_set_toks ts l
with sels_toks : list ptok -> list selection -> Prop :=
| sl_nil : sels_toks [] []
| sl_cons ts s ts' l : sel_toks ts s -> sels_toks ts' l -> sels_toks (ts ++ ts') (s :: l).

Inductive var_toks : list ptok -> vardef -> Prop :=
| vr_plain p p1 n p2 ts t : type_toks (bare ts) t ->
    var_toks ((p, GPunct GDollar) :: (p1, GName n) :: (p2, GPunct GColon) :: ts)
             {| vd_pos := p; vd_name := n; vd_type := t; vd_default := None |}
| vr_default p p1 n p2 ts t p3 v : type_toks (bare ts) t -> value_toks true (bare v) ->
    var_toks ((p, GPunct GDollar) :: (p1, GName n) :: (p2, GPunct GColon) :: ts ++ (p3, GPunct GEquals) :: v)
             {| vd_pos := p; vd_name := n; vd_type := t; vd_default := Some (source_text (bare v)) |}.
Inductive vars_toks : list ptok -> list vardef -> Prop :=
| vs_none : vars_toks [] []
| vs_some p ts a l p' : series var_toks ts (a :: l) -> vars_toks ((p, GPunct GOpen) :: ts ++ [(p', GPunct GClose)]) (a :: l).
Inductive opt_name_toks : list ptok -> option string -> Prop :=
| on_none : opt_name_toks [] None
| on_some p n : opt_name_toks [(p, GName n)] (Some n).
Definition keyword (k : opkind) : string :=
  match k with KQuery => "query" | KMutation => "mutation" | KSubscription => "subscription" end.
Inductive def_toks : list ptok -> definition -> Prop :=
| df_short p ts r sels : set_toks ts sels -> ts = (p, GPunct GOpenCu) :: r -> def_toks ts (DOp (OpSelectionSet p sels))
| df_operation k p n name v vars d dirs b sels : opt_name_toks n name -> vars_toks v vars -> dirs_toks d dirs -> set_toks b sels ->
    def_toks ((p, GName (keyword k)) :: n ++ v ++ d ++ b) (DOp (OpNamed k p name vars dirs sels))
| df_fragment p p1 n p2 p3 c d dirs b sels : dirs_toks d dirs -> set_toks b sels ->
    def_toks ((p, GName "fragment") :: (p1, GName n) :: (p2, GName "on") :: (p3, GName c) :: d ++ b)
             (DFrag {| fr_pos := p; fr_name := n; fr_cond := c; fr_dirs := dirs; fr_sels := sels |}).

(** What a text says *)
Definition start_pos : pos := {| pos_line := 1; pos_col := 1 |}.
Definition text_says (ck : gql_checks) (text : string) (d : document) : Prop :=
  d <> [] /\ exists ts, tokens_of ck start_pos text ts /\ at_most_open 50 ts /\ series def_toks ts d.

(** ** A document without its positions *)
Fixpoint unplaced (s : selection) : selection :=
  match s with
  | SField _ al n a d sub => SField start_pos al n a d (List.map unplaced sub)
  | SSpread _ n d => SSpread start_pos n d
  | SInline _ c d sub => SInline start_pos c d (List.map unplaced sub)
  end.
Definition unplaced_var (v : vardef) : vardef :=
  {| vd_pos := start_pos; vd_name := vd_name v; vd_type := vd_type v; vd_default := vd_default v |}.
Definition unplaced_def (d : definition) : definition :=
  match d with
  | DOp (OpSelectionSet _ l) => DOp (OpSelectionSet start_pos (List.map unplaced l))
  | DOp (OpNamed k _ n vs ds l) => DOp (OpNamed k start_pos n (List.map unplaced_var vs) ds (List.map unplaced l))
  | DFrag f => DFrag {| fr_pos := start_pos; fr_name := fr_name f; fr_cond := fr_cond f; fr_dirs := fr_dirs f; fr_sels := List.map unplaced (fr_sels f) |}
  end.
Definition unplaced_doc : document -> document := List.map unplaced_def.
