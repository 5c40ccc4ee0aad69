(** Model of the release scripts: .circleci/bin/*.sh, .circleci/config.yml (jobs build_release_bin,
    create_github_release, create_npm_release) and pkg/npm/package.json.  The builds, the hash function and the
    services (GitHub, npm) are parameters.  Not modelled: failing commands other than grep, credentials. *)
From Verif Require Export Npm Json.

(** get-release-platforms.sh:4-9 *)
Definition platforms : list string :=
  ["x86_64-unknown-linux-musl"; "aarch64-unknown-linux-musl"; "x86_64-apple-darwin"; "aarch64-apple-darwin"].
(** config.yml:107-110: the builds handed on to the next job *)
Definition persisted : list string :=
  ["x86_64-apple-darwin"; "aarch64-apple-darwin"; "x86_64-unknown-linux-musl"; "aarch64-unknown-linux-musl"].

(** What `qlc --version` prints: clap's name and version (src/cli.rs:291) *)
Definition version_output (version : string) : string := "QL Compiler " +++ version +++ nl.
(** Command substitution removes line breaks at the end *)
Fixpoint shell_value (out : string) : string :=
  match out with
  | EmptyString => EmptyString
  | String c r => match shell_value r with
                  | EmptyString => if Ascii.eqb c (ascii_of_nat 10) then EmptyString else String c EmptyString
                  | r' => String c r'
                  end
  end.
(** get-version-from-binary.sh:4 *)
Definition qlc_version (version : string) : string := shell_value (replace "QL Compiler " "" (version_output version)).

(** make-github-release.sh:10-14: the archives, by name; [tarball p] = tar czf - qlc in target/p/release;
    None = a build is missing *)
Definition release_archive (v p : string) : string := "qlc-" +++ v +++ "-" +++ p +++ ".tar.gz".
Fixpoint archives (v : string) (tarball : string -> string) (ps : list string) : option (list (string * string)) :=
  match ps with
  | [] => Some []
  | p :: ps' => if existsb (String.eqb p) persisted then
                  option_map (cons (release_archive v p, tarball p)) (archives v tarball ps')
                else None
  end.
(** make-github-release.sh:16: one line of sha256sum per file of the directory, in the order of [files];
    checksums.txt by its lines.  The working directory is /opt/qlc (config.yml:40, 47). *)
Definition sum_line (sha256 : string -> string) (f : string * string) : string :=
  sha256 (snd f) +++ "  /opt/qlc/archives/" +++ fst f.

(** [[ $x =~ "part" ]] *)
Fixpoint has_part (part s : string) : bool :=
  starts_with part s || match s with EmptyString => false | String _ s' => has_part part s' end.

(** A release on GitHub: make-github-release.sh:21-29 (ghr) *)
Record github_release := { gh_tag : string; gh_name : string; gh_prerelease : bool; gh_assets : list (string * string) }.
Definition github_of (v : string) (assets : list (string * string)) : github_release :=
  {| gh_tag := v; gh_name := "v" +++ v; gh_prerelease := has_part "-alpha" v || has_part "-beta" v; gh_assets := assets |}.

(** grep: in a basic regular expression of letters, digits, dots, underscores and hyphens, a dot stands for
    any character *)
Fixpoint bre_here (pat s : string) : bool :=
  match pat, s with
  | EmptyString, _ => true
  | String p pat', String c s' => (Ascii.eqb p "." || Ascii.eqb p c) && bre_here pat' s'
  | String _ _, EmptyString => false
  end.
Fixpoint bre_match (pat s : string) : bool :=
  bre_here pat s || match s with EmptyString => false | String _ s' => bre_match pat s' end.
(** The first word of a line that does not start with a blank *)
Fixpoint first_word (s : string) : string :=
  match s with
  | EmptyString => EmptyString
  | String c s' => if is_space c then EmptyString else String c (first_word s')
  end.
(** make-npm-release.sh:12-13; None = grep finds nothing and the script ends *)
Definition checksum_of (lines : list string) (v p : string) : option string :=
  match List.filter (bre_match (release_archive v p)) lines with
  | [] => None
  | l :: _ => Some (first_word l)
  end.

(** pkg/npm/package.json *)
Definition package_template : string := "{
  ""name"": ""@notarize/qlc-cli"",
  ""version"": ""@QLC_VERSION@"",
  ""author"": ""Notarize Inc."",
  ""license"": ""MIT"",
  ""description"": ""A module for using QLC in a Node project"",
  ""types"": ""./lib/index.d.ts"",
  ""main"": ""./lib/index.js"",
  ""exports"": {
    ""."": ""./lib/index.js"",
    ""./typed-documentnode"": ""./lib/typed-documentnode.js""
  },
  ""bin"": {
    ""qlc"": ""bin/qlc"",
    ""qlc-download-schema"": ""bin/qlc-download-schema""
  },
  ""checksumConfig"": {
    ""aarch64-apple-darwin"": ""@aarch64-apple-darwin_CHECKSUM@"",
    ""x86_64-apple-darwin"": ""@x86_64-apple-darwin_CHECKSUM@"",
    ""aarch64-unknown-linux-musl"": ""@aarch64-unknown-linux-musl_CHECKSUM@"",
    ""x86_64-unknown-linux-musl"": ""@x86_64-unknown-linux-musl_CHECKSUM@""
  },
  ""files"": [
    ""bin"",
    ""lib""
  ],
  ""repository"": {
    ""type"": ""git"",
    ""url"": ""https://github.com/notarize/qlc.git""
  },
  ""keywords"": [
    ""gql"",
    ""generator"",
    ""types"",
    ""interfaces"",
    ""graphql"",
    ""codegen"",
    ""apollo"",
    ""typescript"",
    ""ts"",
    ""typings""
  ],
  ""bugs"": {
    ""url"": ""https://github.com/notarize/qlc/issues""
  },
  ""homepage"": ""https://github.com/notarize/qlc"",
  ""scripts"": {
    ""postinstall"": ""node ./lib/postinstall.js""
  },
  ""optionalDependencies"": {
    ""graphql"": ""*""
  }
}
".

(** make-npm-release.sh:9-15: sed replaces the placeholders.  (Versions and checksums contain nothing that sed
    treats specially.) *)
Fixpoint fill_checksums (lines : list string) (v : string) (ps : list string) (text : string) : option string :=
  match ps with
  | [] => Some text
  | p :: ps' => match checksum_of lines v p with
                | Some c => fill_checksums lines v ps' (replace ("@" +++ p +++ "_CHECKSUM@") c text)
                | None => None
                end
  end.
Definition package_json (lines : list string) (v : string) : option string :=
  fill_checksums lines v platforms (replace "@QLC_VERSION@" v package_template).

(** make-npm-release.sh:17-26: yarn publish; without --tag the release becomes latest *)
Record npm_release := { pub_version : string; pub_tag : string; pub_package : string }.
Definition npm_of (v text : string) : npm_release :=
  {| pub_version := v;
     pub_tag := if has_part "-alpha" v then "alpha" else if has_part "-beta" v then "beta" else "latest";
     pub_package := text |}.

(** Both jobs for the version in Cargo.toml.  [order] = the order in which the shell lists the archives;
    [seen] = what sha256sum reads of checksums.txt, if tee has created it before the shell lists the directory;
    [final] = checksums.txt when it is uploaded *)
Record release_env := {
  re_tarball : string -> string;
  re_sha256 : string -> string;
  re_order : list (string * string) -> list (string * string);
  re_seen : option string;
  re_final : string
}.
Definition release (e : release_env) (cargo_version : string) : option (github_release * npm_release) :=
  let v := qlc_version cargo_version in
  match archives v (re_tarball e) platforms with
  | None => None
  | Some files =>
      let listed := re_order e (files ++ match re_seen e with Some x => [("checksums.txt", x)] | None => [] end) in
      let lines := List.map (sum_line (re_sha256 e)) listed in
      match package_json lines v with
      | None => None
      | Some text => Some (github_of v (files ++ [("checksums.txt", re_final e)]), npm_of v text)
      end
  end.
