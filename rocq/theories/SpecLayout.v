(** Specification side for layout: what of a document matters, which lines of a text are import lines, when two texts
    or two messages differ in layout only. *)
From Verif Require Export SpecGtext SpecImport Main.

(** A document without positions, arguments, directives and default values *)
Fixpoint essence (x : selection) : selection :=
  match x with
  | SField _ al n _ _ sub => SField start_pos al n [] [] (List.map essence sub)
  | SSpread _ n _ => SSpread start_pos n []
  | SInline _ c _ sub => SInline start_pos c [] (List.map essence sub)
  end.
Definition essence_var (v : vardef) : vardef :=
  {| vd_pos := start_pos; vd_name := vd_name v; vd_type := vd_type v; vd_default := None |}.
Definition essence_frag (f : fragdef) : fragdef :=
  {| fr_pos := start_pos; fr_name := fr_name f; fr_cond := fr_cond f; fr_dirs := []; fr_sels := List.map essence (fr_sels f) |}.
Definition essence_def (d : definition) : definition :=
  match d with
  | DOp (OpSelectionSet _ l) => DOp (OpSelectionSet start_pos (List.map essence l))
  | DOp (OpNamed k _ n vs _ l) => DOp (OpNamed k start_pos n (List.map essence_var vs) [] (List.map essence l))
  | DFrag f => DFrag (essence_frag f)
  end.

(** The import lines at the head of a text, in order *)
Definition import_line_like (l : string) : Prop := exists r, l = import_mark +++ r.
Inductive import_lines : list string -> list string -> Prop :=
| il_end : import_lines [] []
| il_stop l ls : ~ leading l -> import_lines (l :: ls) []
| il_skip l ls is : leading l -> ~ import_line_like l -> import_lines ls is -> import_lines (l :: ls) is
| il_import l ls is : import_line_like l -> import_lines ls is -> import_lines (l :: ls) (l :: is).
Definition same_imports (t t' : string) : Prop := exists is, import_lines (lines t) is /\ import_lines (lines t') is.

(** Texts with the same import lines that say essentially the same, or nothing *)
Definition same_meaning (parse : string -> res string document) (t t' : string) : Prop :=
  same_imports t t' /\
  match parse t, parse t' with
  | Ok ds, Ok ds' => List.map essence_def ds = List.map essence_def ds'
  | Err _, Err _ => True
  | _, _ => False
  end.
(** Texts that differ in spacing, line breaks, commas and comments other than import lines *)
Definition same_tokens (ck : gql_checks) (t t' : string) : Prop :=
  same_imports t t' /\ exists ts ts', tokens_of ck start_pos t ts /\ tokens_of ck start_pos t' ts' /\ bare ts' = bare ts.

(** File systems with such texts *)
Definition same_files (R : string -> string -> Prop) (f f' : fs) : Prop :=
  forall l, match f l, f' l with Ok t, Ok t' => R t t' | Err a, Err b => a = b | _, _ => False end.

(** Messages that differ in the place they show *)
Definition same_place (s s' : option (string * option location)) : Prop :=
  match s, s' with
  | None, None => True
  | Some (f, None), Some (f', None) => f = f'
  | Some (f, Some l), Some (f', Some l') => f = f' /\ lo_help l = lo_help l'
  | _, _ => False
  end.
Definition same_message (m m' : message) : Prop :=
  ms_level m = ms_level m' /\ ms_text m = ms_text m' /\ same_place (ms_source m) (ms_source m').

(** ... or in the words of the parser about a file it cannot read *)
Inductive like_message (parse : string -> res string document) : message -> message -> Prop :=
| lm_same m m' : same_message m m' -> like_message parse m m'
| lm_parse path t t' a a' : same_meaning parse t t' -> parse t = Err a -> parse t' = Err a' ->
    like_message parse {| ms_level := CompileError; ms_source := Some (path, None); ms_text := a |}
                       {| ms_level := CompileError; ms_source := Some (path, None); ms_text := a' |}.

(** From [f] to [g] and from [f'] to [g'], the same was written *)
Definition same_effect (f f' g g' : fs) : Prop := forall l, (g l = f l /\ g' l = f' l) \/ g l = g' l.

(** Outcomes of compiling a file: both fail to end, both stop short, or both end with such messages and the same effect;
    if the file compiles, with the same names for the globals file and the same text at the output location *)
Definition same_outcome (parse : string -> res string document) (f f' : fs) (out : string)
           (r r' : outcome (fs * res (list message) report)) : Prop :=
  match r, r' with
  | Done (g, x), Done (g', x') => same_effect f f' g g' /\
      match x, x' with
      | Ok a, Ok b => rp_globals a = rp_globals b /\ Forall2 (like_message parse) (rp_messages a) (rp_messages b) /\
          exists t, g out = Ok t /\ g' out = Ok t
      | Err ms, Err ms' => Forall2 (like_message parse) ms ms'
      | _, _ => False
      end
  | Panics, Panics => True
  | Diverges, Diverges => True
  | _, _ => False
  end.

(** Ends of the process *)
Definition same_end (parse : string -> res string document) (f f' : fs) (p p' : process_end) : Prop :=
  match p, p' with
  | Exited code out g, Exited code' out' g' => code = code' /\ same_effect f f' g g' /\
      exists ms ms', Forall2 (like_message parse) ms ms' /\ exit_report ms = (out, code) /\ exit_report ms' = (out', code')
  | ProcPanicked, ProcPanicked => True
  | ProcAborted, ProcAborted => True
  | Running, Running => True
  | _, _ => False
  end.

(** The order in which a map is visited depends on its keys only *)
Definition by_keys (o : order) : Prop := forall q K V W (g : V -> W) (l : list (K * V)),
  o q _ (List.map (fun x => (fst x, g (snd x))) l) = List.map (fun x => (fst x, g (snd x))) (o q _ l).
