(** C60: a download succeeds or leaves the files as they were. *)
From Verif Require Import Download.

(** The arguments: an absent and an empty argument are the same *)
Definition given (o : option string) (s : string) : Prop := o = Some s /\ s <> "".
Definition target (o : option string) (p : string) : Prop := given o p \/ ((forall s, ~ given o s) /\ p = "schema.json").

Lemma given_present o s : given o s <-> present o = Some s.
Proof.
  unfold given, present. destruct o as [[|c x]|]; split; intros H; try discriminate.
  - destruct H as [H N]. congruence.
  - destruct H as [H N]. exact H.
  - split; [exact H|]. injection H as <-. discriminate.
  - destruct H; discriminate.
Qed.
Lemma target_path o p : target o p <-> p = match present o with Some q => q | None => "schema.json" end.
Proof.
  unfold target. split.
  - intros [H|[N ->]]; [apply given_present in H; rewrite H; reflexivity|].
    destruct (present o) as [q|] eqn:E; [exfalso; apply (N q), given_present; exact E|reflexivity].
  - intros ->. destruct (present o) as [q|] eqn:E; [left; apply given_present; exact E|right].
    split; [|reflexivity]. intros s G. apply given_present in G. congruence.
Qed.

(** Exit code 0 exactly if the file could be opened and the server answered the query with 200; then the
    file holds the body, and nothing else has changed *)
Theorem C60_success : forall e endpoint out f f',
  download_schema e endpoint out f = (0, f') <->
  exists url path body, given endpoint url /\ target out path /\ dl_url_ok e url = true /\ dl_open_ok e path = true /\
    dl_post e url request_body = DStatus 200 body /\ f' = put (put f path (Some "")) path (Some body).
Proof.
  intros e endpoint out f f'. unfold download_schema. split.
  - destruct (present endpoint) as [url|] eqn:E; [|discriminate]. cbn zeta.
    remember (match present out with Some p => p | None => "schema.json" end) as path eqn:Ep.
    destruct (dl_url_ok e url) eqn:U; [|discriminate]. destruct (dl_open_ok e path) eqn:O; [|discriminate]. cbn [negb].
    destruct (dl_post e url request_body) as [c body|] eqn:P; [|discriminate].
    destruct (Nat.eqb_spec c 200) as [->|]; [|discriminate]. intros H. injection H as <-. exists url, path, body. repeat split; auto; try (apply given_present in E; apply E). apply target_path. exact Ep.
  - intros (url & path & body & G & T & U & O & P & ->). apply given_present in G. apply target_path in T. rewrite G, U. cbn zeta.
    rewrite <- T, O, P. reflexivity.
Qed.
Print Assumptions C60_success.
Theorem C60_contents : forall e endpoint out f f' path, download_schema e endpoint out f = (0, f') -> target out path ->
  exists url body, given endpoint url /\ dl_post e url request_body = DStatus 200 body /\
    f' path = Some body /\ forall q, q <> path -> f' q = f q.
Proof.
  intros e endpoint out f f' path H T. apply C60_success in H. destruct H as (url & p & body & G & T' & _ & _ & P & ->).
  assert (p = path) by (apply target_path in T; apply target_path in T'; congruence). subst p. exists url, body.
  split; [exact G|]. split; [exact P|]. split; [unfold put; cbv beta; rewrite (proj2 (String.eqb_eq path path) eq_refl); reflexivity|].
  intros q N. unfold put. destruct (String.eqb_spec q path); [contradiction|reflexivity].
Qed.
Print Assumptions C60_contents.

(** Any other exit code is 1; no other file changes; the target is as before, empty, or gone: never with
    contents that are not a complete answer.  Without an endpoint or a writable target nothing changes. *)
Theorem C60_failure : forall e endpoint out f c f', download_schema e endpoint out f = (c, f') -> c <> 0 ->
  c = 1 /\ (forall q, ~ target out q -> f' q = f q) /\
  (forall p, target out p -> f' p = f p \/ f' p = Some "" \/ f' p = None) /\
  ((forall url, ~ given endpoint url) -> f' = f) /\
  (forall p, target out p -> dl_open_ok e p = false -> f' = f).
Proof.
  intros e endpoint out f c f' H N. unfold download_schema in H.
  remember (match present out with Some p => p | None => "schema.json" end) as path eqn:Ep.
  assert (Q : forall v q, ~ target out q -> put f path v q = f q).
  { intros v q T. unfold put. destruct (String.eqb_spec q path) as [->|]; [|reflexivity]. exfalso. apply T, target_path. exact Ep. }
  assert (R : forall p, target out p -> p = path) by (intros p T; apply target_path in T; congruence).
  destruct (present endpoint) as [url|] eqn:E.
  2: { injection H as <- <-. repeat split; auto. }
  assert (G : forall X, (forall url, ~ given endpoint url) -> X) by (intros X K; exfalso; apply (K url), given_present; exact E).
  cbn zeta in H.
  destruct (dl_url_ok e url); cbn [negb] in H.
  2: { injection H as <- <-. destruct (dl_open_first e); [|repeat split; auto].
       destruct (dl_open_ok e path) eqn:O; [|repeat split; auto]. split; [reflexivity|]. split; [apply Q|]. split; [|split; [apply G|]].
       - intros p T. rewrite (R p T). unfold put. rewrite String.eqb_refl. auto.
       - intros p T F. rewrite (R p T) in F. congruence. }
  destruct (dl_open_ok e path) eqn:O; cbn [negb] in H.
  2: { injection H as <- <-. repeat split; auto. }
  assert (K : forall r, (1, if dl_unlink_ok e path then put (put f path (Some "")) path None else put f path (Some "")) = (c, f') -> r = c -> c = 1 /\
     (forall q, ~ target out q -> f' q = f q) /\ (forall p, target out p -> f' p = f p \/ f' p = Some "" \/ f' p = None) /\
     ((forall url, ~ given endpoint url) -> f' = f) /\ (forall p, target out p -> dl_open_ok e p = false -> f' = f)).
  { intros r X _. injection X as <- <-. split; [reflexivity|]. split; [|split; [|split; [apply G|]]].
    - intros q T. destruct (dl_unlink_ok e path); [|apply Q; exact T]. unfold put at 1. destruct (String.eqb_spec q path) as [->|]; [|apply Q; exact T].
      exfalso. apply T, target_path. exact Ep.
    - intros p T. rewrite (R p T). right. destruct (dl_unlink_ok e path); unfold put; rewrite String.eqb_refl; auto.
    - intros p T F. rewrite (R p T) in F. congruence. }
  destruct (dl_post e url request_body) as [k body|]; [|apply (K c H eq_refl)].
  destruct (Nat.eq_dec k 200) as [->|Nk]; [injection H as <- _; congruence|].
  apply Nat.eqb_neq in Nk. rewrite Nk in H. apply (K c H eq_refl).
Qed.
Print Assumptions C60_failure.

(** A failed download destroys the previous schema: a server that answers 500 *)
Definition down : dl_env :=
  {| dl_url_ok := fun _ => true; dl_post := fun _ _ => DStatus 500 "down"; dl_open_ok := fun _ => true; dl_open_first := true;
     dl_unlink_ok := fun _ => true |}.
Theorem C60_refuted : exists e endpoint out f f', download_schema e endpoint out f = (1, f') /\
  f "schema.json" = Some "previous" /\ f' "schema.json" = None.
Proof.
  exists down, (Some "http://x/graphql"), None, (fun p => if String.eqb p "schema.json" then Some "previous" else None).
  eexists. split; [reflexivity|]. split; reflexivity.
Qed.
Print Assumptions C60_refuted.

Definition up : dl_env :=
  {| dl_url_ok := fun _ => true; dl_post := fun _ _ => DStatus 200 "{}"; dl_open_ok := fun _ => true; dl_open_first := true;
     dl_unlink_ok := fun _ => true |}.
Example C60_nonvacuous : fst (download_schema up (Some "http://x/graphql") (Some "s.json") (fun _ => None)) = 0 /\
  snd (download_schema up (Some "http://x/graphql") (Some "s.json") (fun _ => None)) "s.json" = Some "{}" /\
  download_schema up None None (fun _ => None) = (1, fun _ => None) /\ target None "schema.json" /\ target (Some "") "schema.json".
Proof. repeat split; try reflexivity; apply target_path; reflexivity. Qed.
