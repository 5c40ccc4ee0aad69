(** The schema of the examples about farms with one type more, and with more fields. *)
From Verif Require Export SpecGrow ShareWorlds.


Definition bigger_json : jschema :=
  [object_type "Barn" [plain_field "pets" (nonnull (list_of (nonnull (named_type "INTERFACE" "Pet"))))];
   object_type "Query" [plain_field "barn" (named_type "OBJECT" "Barn"); plain_field "pet" (nonnull (named_type "INTERFACE" "Pet"));
                        plain_field "pets" (nonnull (list_of (nonnull (named_type "INTERFACE" "Pet"))))];
   abstract_type "INTERFACE" "Pet" ["Cat"; "Dog"; "Eel"] (Some [plain_field "nothing" sstring; plain_field "name" (nonnull sstring)]);
   object_type "Dog" [plain_field "name" (nonnull sstring); plain_field "size" (nonnull (named_type "ENUM" "Size"));
                      plain_field "owner" (nonnull (named_type "OBJECT" "User")); plain_field "nothing" sstring];
   object_type "Cat" [plain_field "name" (nonnull sstring); plain_field "size" (nonnull (named_type "ENUM" "Size"));
                      plain_field "owner" (nonnull (named_type "OBJECT" "User")); plain_field "nothing" sstring];
   object_type "Eel" [plain_field "name" (nonnull sstring); plain_field "owner" (nonnull (named_type "OBJECT" "User")); plain_field "nothing" sstring];
   object_type "User" [plain_field "name" (nonnull sstring); plain_field "mood" (nonnull (named_type "ENUM" "Mood"));
                       plain_field "pet" (named_type "INTERFACE" "Pet")];
   enum_type "Mood" ["GLAD"; "SAD"]; enum_type "Size" ["BIG"; "SMALL"]; scalar_type "String"].
Definition bigger : schema := Eval vm_compute in match load_schema bigger_json with Ok s => s | Err _ => [] end.
Lemma bigger_loaded : load_schema bigger_json = Ok bigger.
Proof. vm_compute. reflexivity. Qed.

(** A check of [added], for introspection results that name every type and every field once *)
Lemma last_named_in {A} (name : A -> string) n l x : last_named name n l x -> In x l /\ name x = n.
Proof. intros (pre & suf & -> & E & _). split; auto. apply in_or_app. right. left. reflexivity. Qed.
Lemma once_last {A} (name : A -> string) l x : NoDup (List.map name l) -> In x l -> last_named name (name x) l x.
Proof.
  intros N I. apply in_split in I. destruct I as (pre & suf & ->). exists pre, suf. split; [reflexivity|]. split; [reflexivity|].
  intros y Iy E. rewrite map_app in N. apply NoDup_remove_2 in N. apply N. rewrite <- E. apply in_or_app. right. apply in_map. exact Iy.
Qed.
Lemma more_fields fs fs' : NoDup (List.map jf_name fs') -> (forall x, In x fs -> In x fs') -> none_named jf_name "__typename" fs' -> declared_same fs fs'.
Proof.
  intros N Sub Nt. split; auto. intros n f H. destruct (last_named_in _ _ _ _ H) as [I <-]. apply once_last; auto.
Qed.
Lemma bigger_added : added farm_json bigger_json.
Proof.
  assert (N : NoDup (List.map jt_name bigger_json)) by (repeat constructor; cbn; intuition discriminate).
  assert (X : forall j, In j farm_json -> exists j', In j' bigger_json /\ jt_name j' = jt_name j /\ def_added j j').
  { assert (F : forall fs fs', NoDup (List.map jf_name fs') -> (forall x, In x fs -> In x fs') -> (forall x, In x fs' -> jf_name x <> "__typename") -> opt_related declared_same (Some fs) (Some fs')).
    { intros. apply more_fields; auto. }
    intros j I. unfold farm_json in I. cbn [In] in I.
    repeat (destruct I as [<-|I]; [eexists; split; [unfold bigger_json; cbn [In]|]|]); try contradiction I;
      [do 1 right; left; reflexivity| |do 2 right; left; reflexivity| |do 3 right; left; reflexivity| |do 4 right; left; reflexivity| |
       do 5 right; left; reflexivity| |do 6 right; left; reflexivity| |do 7 right; left; reflexivity| |do 8 right; left; reflexivity| |do 9 right; left; reflexivity|];
      (split; [reflexivity|]); constructor; try reflexivity; try (intros [E|E]; discriminate E); try (intros E; discriminate E); try (intros _; split; [apply Permutation_refl|reflexivity]); intros _;
      cbn [jt_fields jt_possible_types object_type abstract_type opt_related same_members]; try (intros T; cbn; tauto);
      (apply F; [repeat constructor; cbn; intuition discriminate|intros x; cbn [In]; tauto|intros x; cbn [In]; intuition (subst; discriminate)]). }
  intros n j H. destruct (last_named_in _ _ _ _ H) as [I <-]. destruct (X j I) as (j' & I' & E & D). exists j'. split; auto. rewrite <- E. apply once_last; auto.
Qed.

(** One enum value more; one object type more for the interface *)
Definition calmer_json : jschema :=
  List.map (fun j => if String.eqb (jt_name j) "Mood" then enum_type "Mood" ["GLAD"; "SAD"; "CALM"] else j) farm_json.
Definition foxy_json : jschema :=
  object_type "Fox" [plain_field "name" (nonnull sstring)] ::
  List.map (fun j => if String.eqb (jt_name j) "Pet"
                     then abstract_type "INTERFACE" "Pet" ["Dog"; "Cat"; "Eel"; "Fox"] (Some [plain_field "name" (nonnull sstring)]) else j) farm_json.
