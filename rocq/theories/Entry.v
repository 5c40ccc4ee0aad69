(** Model of the ways into the installed npm package: pkg/npm/lib/index.js, pkg/npm/lib/index.d.ts, pkg/npm/bin and
    the entries of pkg/npm/package.json, as Node.js and npm read them, and of where pkg/npm/lib/postinstall.js puts
    things.  Paths are those of Unix (the only supported machines).  Not modelled: symbolic links, patterns and
    conditions in [exports] (there are none), the Windows variants of path.join. *)
From Verif Require Export Release Path.

(** Node's path.posix: normalizeString, on the pieces between separators; the last piece first.  [above] = whether
    .. may climb above the start *)
Definition norm_piece (above : bool) (done : list string) (p : string) : list string :=
  if negb (real_piece p) then done
  else if String.eqb p ".." then
    match done with
    | top :: rest => if String.eqb top ".." then (if above then ".." :: done else done) else rest
    | [] => if above then [".."] else []
    end
  else p :: done.
Definition norm_pieces (above : bool) (ps : list string) : list string := rev (fold_left (norm_piece above) ps []).
(** Node's path.posix.normalize *)
Definition normalize (s : string) : string :=
  match s with
  | EmptyString => "."
  | _ => let body := join "/" (norm_pieces (negb (is_absolute s)) (pieces s)) in
         let body := if is_empty body && negb (is_absolute s) then "." else body in
         let body := if ends_with_sep s && negb (is_empty body) then body +++ "/" else body in
         if is_absolute s then "/" +++ body else body
  end.
(** Node's path.posix.join for two arguments *)
Definition node_join (a b : string) : string :=
  if is_empty a then normalize b else if is_empty b then normalize a else normalize (a +++ "/" +++ b).

(** __dirname of the files in lib, for a package installed at [root] *)
Definition lib_dir (root : string) : string := root +++ "/lib".
(** lib/index.js:3: module.exports *)
Definition main_export (root : string) : string := node_join (lib_dir root) "../bin/qlc".
(** lib/postinstall.js:16 *)
Definition bin_path (root : string) : string := node_join (lib_dir root) "../bin".

(** ** Files after an installation *)
Definition files_at : Type := string -> option (string * bool).     (* path -> contents, executable *)
Definition put (p : string) (x : option (string * bool)) (fs : files_at) : files_at :=
  fun q => if String.eqb q p then x else fs q.
(** tar xf: the members of an archive, by name *)
Fixpoint unpack (dir : string) (members : list (string * (string * bool))) (fs : files_at) : files_at :=
  match members with
  | [] => fs
  | (m, x) :: ms => unpack dir ms (put (node_join dir m) (Some x) fs)
  end.
(** postinstall.js:38-62, 94-112: what the actions do to the files if they succeed; npm starts the script in [root].  [members] = the
    contents of an archive, [archive] = tarballFileName *)
Definition perform (root archive : string) (members : string -> list (string * (string * bool))) (a : action) (fs : files_at) : files_at :=
  match a with
  | AGet _ | AMkdir => fs
  | ASave x => put (node_join root archive) (Some (x, false)) fs
  | ADelete => put (node_join root archive) None fs
  | AUnpack x => unpack (bin_path root) (members x) fs
  | AChmod => let p := node_join (bin_path root) "qlc" in
              put p (option_map (fun x => (fst x, true)) (fs p)) fs
  end.
Definition performed (root archive : string) (members : string -> list (string * (string * bool))) (acts : list action) (fs : files_at) : files_at :=
  fold_left (fun fs a => perform root archive members a fs) acts fs.

(** ** package.json as Node.js and npm read it *)
(** JSON.parse keeps the last member of a name *)
Fixpoint last_member (k : string) (l : list (string * json)) : option json :=
  match l with
  | [] => None
  | (k', v) :: l' => match last_member k l' with
                     | Some x => Some x
                     | None => if String.eqb k k' then Some v else None
                     end
  end.
Definition member (k : string) (j : json) : option json := match j with JObj l => last_member k l | _ => None end.
(** What follows the name of the package in a specifier, as a key of [exports] *)
Definition subpath (name spec : string) : option string :=
  match strip_prefix name spec with
  | Some EmptyString => Some "."
  | Some rest => if starts_with "/" rest then Some ("." +++ rest) else None
  | None => None
  end.
(** Node's PACKAGE_RESOLVE for a package that has [exports]: only its keys can be asked for, and their targets
    start with ./ *)
Definition node_resolve (root : string) (pkg : json) (spec : string) : option string :=
  match member "name" pkg, member "exports" pkg with
  | Some (JStr name), Some exports =>
      match subpath name spec with
      | Some key => match member key exports with
                    | Some (JStr target) => if starts_with "./" target then Some (node_join root target) else None
                    | _ => None
                    end
      | None => None
      end
  | _, _ => None
  end.
(** The files that npm links as commands *)
Definition bin_link (root : string) (pkg : json) (command : string) : option string :=
  match member "bin" pkg with
  | Some bins => match member command bins with Some (JStr target) => Some (node_join root target) | _ => None end
  | None => None
  end.

(** pkg/npm: the files of the package, relative to its root *)
Definition package_files : list string :=
  ["README.md"; "package.json"; "bin/qlc"; "bin/qlc-download-schema"; "lib/download.js"; "lib/index.d.ts"; "lib/index.js";
   "lib/postinstall.js"; "lib/typed-documentnode.d.ts"; "lib/typed-documentnode.js"].
(** npm publishes package.json, README, and what [files] names *)
Definition listed_in (files : list json) (f : string) : bool :=
  existsb (fun j => match j with JStr d => String.eqb f d || starts_with (d +++ "/") f | _ => false end) files.
Definition published (pkg : json) (f : string) : bool :=
  existsb (String.eqb f) package_files &&
  (String.eqb f "package.json" || String.eqb f "README.md" ||
   match member "files" pkg with Some (JArr l) => listed_in l f | _ => true end).

(** ** What an import of the package gives *)
Inductive jsvalue : Type := JsUndefined | JsString (s : string).
(** Members of a value: a string has none named default (nor __esModule) *)
Definition js_member (v : jsvalue) (k : string) : option jsvalue :=
  match v with
  | JsUndefined => None                                             (* TypeError *)
  | JsString _ => if String.eqb k "default" || String.eqb k "__esModule" then Some JsUndefined else None
  end.
(** The ways in which `import path from "@notarize/qlc-cli"` is run: by Node.js as an ES module, compiled to CommonJS with
    esModuleInterop (__importDefault), or compiled to CommonJS without *)
Inductive importer : Type := NativeModule | Interop | PlainCommonJs.
Definition default_import (i : importer) (exported : jsvalue) : option jsvalue :=
  match i with
  | NativeModule => Some exported
  | Interop => match js_member exported "__esModule" with
               | Some JsUndefined | None => Some exported
               | Some (JsString s) => if is_empty s then Some exported else js_member exported "default"
               end
  | PlainCommonJs => js_member exported "default"
  end.
(** lib/index.d.ts:1-2: the default export is declared to be a string *)
Definition declared_default (v : jsvalue) : bool := match v with JsString _ => true | JsUndefined => false end.
