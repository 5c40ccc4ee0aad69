(** Specification side for runs that end: what a source must not do. *)
From Verif Require Export SpecFs SpecDiag.

(** [fd] is brought into the file at [path] under the name [n] by imports *)
Definition brought (e : env) (f : fs) (c : cconfig) (path contents n : string) (fd : fragdef) : Prop :=
  exists t o, reach e f c path contents t o /\ holds_fragment e o fd /\ fr_name fd = n.
(** A brought fragment called [a] spreads [b] *)
Definition spread_by (e : env) (f : fs) (c : cconfig) (path contents b a : string) : Prop :=
  exists fd, brought e f c path contents a fd /\ spreads (fr_sels fd) b.

(** If the file holds one document: no import leads back, none lacks its closing quote, and no fragment that the document
    spreads leads back to itself *)
Record well_formed (e : env) (f : fs) (c : cconfig) (path contents : string) (d : definition) : Prop := {
  wf_imports : acyclic e f c path;
  wf_quotes : forall F C, importer e f c path contents F C -> ~ unclosed_import C;
  wf_spreads : forall P l m, doc_root d = Some (P, l) -> spreads l m -> Acc (spread_by e f c path contents) m }.
Definition sound_source (e : env) (f : fs) (c : cconfig) (path : string) : Prop :=
  forall contents d, f (env_locate e path) = Ok contents -> env_parse e contents = Ok [d] -> well_formed e f c path contents d.
