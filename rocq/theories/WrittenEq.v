(** Two trees for one readable module agree up to comments. *)
From Verif Require Export Written.

Lemma items_inj m m' : tsfile_items m = tsfile_items m' ->
  tf_node m = tf_node m' /\ tf_globals m = tf_globals m' /\ List.map bare_decl (tf_decls m) = List.map bare_decl (tf_decls m') /\
  tf_args m = tf_args m'.
Proof.
  unfold tsfile_items. intros E. injection E as En _ E.
  assert (G : tf_globals m = tf_globals m' /\
    List.map (fun d => ItType (bare_decl d)) (tf_decls m) ++ [ItConst "graphqlDocument" (tf_node m) (tf_args m); ItDefault "graphqlDocument"] =
    List.map (fun d => ItType (bare_decl d)) (tf_decls m') ++ [ItConst "graphqlDocument" (tf_node m') (tf_args m'); ItDefault "graphqlDocument"]).
  { destruct (tf_globals m) as [|g gs], (tf_globals m') as [|g' gs']; cbn [app] in E; auto.
    - destruct (tf_decls m); discriminate.
    - destruct (tf_decls m'); discriminate.
    - injection E as -> -> _ E. auto. }
  destruct G as [Eg Ed]. split; auto. split; auto.
  apply (f_equal (@rev item)) in Ed. rewrite !rev_app_distr in Ed. cbn [rev app] in Ed. injection Ed as _ Ea Ed. split; auto.
  apply (f_equal (@rev item)) in Ed. rewrite !rev_involutive in Ed.
  rewrite <- !(map_map bare_decl ItType) in Ed. revert Ed. generalize (List.map bare_decl (tf_decls m)) (List.map bare_decl (tf_decls m')).
  induction l as [|x l IH]; intros [|y l'] Ed; try discriminate; auto. cbn in Ed. injection Ed as -> Ed. f_equal. auto.
Qed.
Lemma bare_names l l' : List.map bare_decl l = List.map bare_decl l' -> List.map decl_name l = List.map decl_name l'.
Proof.
  intros E. assert (X : forall l, List.map decl_name l = List.map decl_name (List.map bare_decl l)).
  { intros x. rewrite map_map. apply map_ext. intros []; reflexivity. }
  rewrite (X l), (X l'), E. reflexivity.
Qed.
Lemma written_same cx c d co m m' : written_as cx c d co m -> written_as cx c d co m' ->
  nameable c (cx_schema cx) -> doc_named (cx_frags cx) d (def_name d) -> tsfile_items m = tsfile_items m'.
Proof. intros [_ W] [_ W'] N D. apply (W' N D), (W N D). reflexivity. Qed.
