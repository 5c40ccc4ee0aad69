(** Model of pkg/npm/lib/postinstall.js.  The network, the hash function, the archive program and the
    success of file operations are parameters.  Not modelled: timing (a failing mkdir is taken to be
    noticed after the download has ended), other processes touching the archive, truncated transfers
    other than as a different body, the text of error messages. *)
From Verif Require Export Base.

(** postinstall.js:44-58: what a GET leads to *)
Inductive response : Type :=
| RBody (contents : string)        (* status 200 *)
| RMoved (location : string)       (* status 302 *)
| RStatus (code : nat)             (* any other status *)
| RError.                          (* "error" event *)

Record npm_env := {
  np_id : string;                              (* `${platform()}-${arch()}` *)
  np_version : string;                         (* package.json version *)
  np_checksums : string -> option string;      (* package.json checksumConfig *)
  np_sha256 : string -> string;                (* createHash("sha256")...digest("hex") *)
  np_get : nat -> string -> response;          (* answer to the n-th request, to a URL *)
  np_bin_exists : bool;                        (* access(BIN_PATH) *)
  np_mkdir_ok : bool; np_unlink_ok : bool; np_chmod_ok : bool;
  np_tar : string -> option nat                (* tar's exit code on an archive; None = cannot be started *)
}.

(** postinstall.js:18-32 [getTarget] *)
Definition get_target (id : string) : option string :=
  if String.eqb id "darwin-x64" then Some "x86_64-apple-darwin"
  else if String.eqb id "darwin-arm64" then Some "aarch64-apple-darwin"
  else if String.eqb id "linux-x64" then Some "x86_64-unknown-linux-musl"
  else if String.eqb id "linux-arm64" then Some "aarch64-unknown-linux-musl"
  else None.

(** Visible actions, in order *)
Inductive action : Type :=
| AGet (url : string) | ASave (contents : string) | AMkdir | ADelete | AUnpack (contents : string) | AChmod.

(** The archive file: its contents, if it exists *)
Definition disk : Type := option string.

(** [unlink]: removes the file if that works *)
Definition unlink (e : npm_env) (d : disk) : disk := if np_unlink_ok e then None else d.

(** postinstall.js:34-63 [download]: one unit of fuel per redirect; None = out of fuel; true = resolved *)
Fixpoint download (fuel : nat) (e : npm_env) (n : nat) (url : string) (d : disk)
  : option (bool * list action * disk) :=
  match fuel with
  | O => None
  | S k =>
      match np_get e n url with
      | RBody x => Some (true, [AGet url; ASave x], Some x)
      | RMoved l => match download k e (S n) l d with
                    | Some (b, acts, d') => Some (b, AGet url :: acts, d')
                    | None => None
                    end
      | RStatus _ | RError => Some (false, [AGet url; ADelete], unlink e d)
      end
  end.

(** postinstall.js:77-92 [checksum]: whether it returns (rather than throws); `!expected` also holds of
    the empty string *)
Definition checksum (e : npm_env) (target contents : string) : bool :=
  match np_checksums e target with
  | None => false
  | Some expected => negb (is_empty expected) && String.eqb expected (np_sha256 e contents)
  end.

(** postinstall.js:95-97 *)
Definition archive_name (e : npm_env) (target : string) : string :=
  "qlc-" +++ np_version e +++ "-" +++ target +++ ".tar.gz".
Definition archive_url (e : npm_env) (target : string) : string :=
  "https://github.com/notarize/qlc/releases/download/" +++ np_version e +++ "/" +++ archive_name e target.

(** postinstall.js:94-124 [main] and its handlers: exit code, actions and the archive left behind;
    None = out of fuel *)
Definition install (fuel : nat) (e : npm_env) : option (nat * list action * disk) :=
  match get_target (np_id e) with
  | None => Some (1, [], None)
  | Some target =>
      match download fuel e 0 (archive_url e target) None with
      | None => None
      | Some (ok, acts, d) =>
          let acts := (if np_bin_exists e then [] else [AMkdir]) ++ acts in
          if negb ok || negb (np_bin_exists e || np_mkdir_ok e) then Some (1, acts, d)
          else
            match d with
            | None => Some (1, acts, d)
            | Some x =>
                if checksum e target x then
                  let acts := acts ++ [AUnpack x] in
                  match np_tar e x with
                  | Some 0 => Some (if np_unlink_ok e && np_chmod_ok e then 0 else 1,
                                    acts ++ [ADelete; AChmod], unlink e d)
                  | _ => Some (1, acts, d)
                  end
                else Some (1, acts ++ [ADelete], unlink e d)
            end
      end
  end.
