(** C58: tree nodes keep consistent parent and child links. *)
From Verif Require Import Base Node_model Node_spec Node_proofs.

(** After any history of legitimate calls the nodes form a forest, every node is owned by exactly one root, and the
    length of the chain of parents is at most the number of nodes. *)
Theorem C58_forest : forall h, reached h ->
  forest h /\
  (forall n, exists r, h_parent h r = None /\ owns h r n /\ forall r', h_parent h r' = None -> owns h r' n -> r' = r) /\
  (forall n d, n < h_size h -> ancestors h n d -> d < h_size h).
Proof.
  intros h H. destruct (reached_forest h H) as [F _]. split; [exact F|]. split.
  - intros n. exact (one_root h n F).
  - intros n d. exact (depth_lt h n d F).
Qed.
Print Assumptions C58_forest.

(** Every legitimate call returns. *)
Theorem C58_calls_return : forall h x, reached h -> allowed h x -> exists h', nstep (h_size h) h x = Ok h'.
Proof.
  intros h x H Ha. destruct (reached_forest h H) as [F _]. destruct x as [|p n|p n|p b c adopt|c np]; cbn [nstep allowed] in *; eauto.
  - destruct (remove_child h p n); eauto.
  - destruct (replace_child h p b c adopt); eauto.
  - destruct Ha as (H1 & H2 & H3).
    destruct (reparent_spec h c np (match h_parent h c with None => Some c | Some _ => None end) (h_size h) F H1 H2 H3) as (g & r & E & _);
      [auto|intros ->; auto|]. rewrite E. cbn. eauto.
Qed.
Print Assumptions C58_calls_return.

(** [GetDepth] is the number of ancestors and [IsDescendantOf] is ancestry. *)
Theorem C58_depth : forall h n, reached h -> n < h_size h -> exists d, ancestors h n d /\ get_depth (h_size h) h n = Ok d.
Proof.
  intros h n H Hn. destruct (reached_forest h H) as [F _]. destruct (fo_ends h F n) as [d Hd]. exists d. split; [exact Hd|].
  apply get_depth_ok; auto. now apply (depth_lt h n d F).
Qed.
Print Assumptions C58_depth.
Theorem C58_descendant : forall h n a, reached h -> n < h_size h ->
  exists b, is_descendant_of (h_size h) h n a = Ok b /\ (b = true <-> above h a n).
Proof.
  intros h n a H Hn. destruct (reached_forest h H) as [F _]. destruct (fo_ends h F n) as [d Hd].
  apply (is_descendant_ok h n d); auto. now apply (depth_lt h n d F).
Qed.
Print Assumptions C58_descendant.

(** The effect of the other calls on the parents; those of all other nodes are unchanged. *)
Theorem C58_add : forall h p n,
  h_parent (add_child h p n) n = Some p /\ forall m, m <> n -> h_parent (add_child h p n) m = h_parent h m.
Proof. intros h p n. split; [apply upd_same|]. intros m. apply upd_other. Qed.
Print Assumptions C58_add.
Theorem C58_remove : forall h p n, reached h -> h_parent h n = Some p ->
  exists h', remove_child h p n = Some h' /\ h_parent h' n = None /\ (forall m, m <> n -> h_parent h' m = h_parent h m) /\
    (forall q, q <> p -> h_children h' q = h_children h q).
Proof.
  intros h p n H E. destruct (reached_forest h H) as [F _]. apply (fo_links h F) in E. destruct (remove_child_ok h p n E) as [h' E'].
  exists h'. split; [exact E'|]. apply remove_child_some in E' as (_ & _ & -> & ->). split; [apply upd_same|].
  split; [intros m; apply upd_other|intros q; apply upd_other].
Qed.
Print Assumptions C58_remove.
Theorem C58_replace : forall h p b c adopt, reached h -> allowed h (NReplace p b c adopt) -> h_parent h b = Some p ->
  exists h', replace_child h p b c adopt = Some h' /\ h_parent h' c = Some p /\ h_parent h' b = None /\
    (forall m, h_parent h m = Some b -> h_parent h' m = if adopt then Some c else Some b) /\
    (forall m, m <> b -> m <> c -> h_parent h m <> Some b -> h_parent h' m = h_parent h m).
Proof.
  intros h p b c adopt H (H0 & H1 & H2 & H3 & H4 & H5) E. destruct (reached_forest h H) as [F _]. pose proof E as Hi. apply (fo_links h F) in Hi.
  destruct (replace_child h p b c adopt) as [h'|] eqn:E'.
  2: { unfold replace_child in E'. apply existsb_In in Hi. rewrite Hi in E'. discriminate. }
  exists h'. split; [reflexivity|]. apply replace_parent in E' as (_ & _ & Pa & _).
  assert (Hbb : forall m, existsb (Nat.eqb m) (h_children h b) = true <-> h_parent h m = Some b).
  { intros m. rewrite existsb_In. symmetry. apply (fo_links h F). }
  assert (Hcb : b <> c) by congruence.
  assert (Hself : forall m, h_parent h m = Some m -> False).
  { intros m Hm. apply (above_irrefl h m F). now apply above_parent. }
  split; [|split; [|split]].
  - rewrite Pa, Nat.eqb_refl. reflexivity.
  - rewrite Pa. destruct (Nat.eqb_spec b c); [easy|]. destruct (existsb (Nat.eqb b) (h_children h b)) eqn:E1.
    + apply Hbb in E1. destruct (Hself b E1).
    + rewrite andb_false_r, Nat.eqb_refl. reflexivity.
  - intros m Hm. rewrite Pa. destruct (Nat.eqb_spec m c) as [->|]; [congruence|]. rewrite (proj2 (Hbb m) Hm), andb_true_r.
    destruct adopt; auto. destruct (Nat.eqb_spec m b) as [->|]; auto. destruct (Hself b Hm).
  - intros m Hm1 Hm2 Hm3. rewrite Pa. destruct (Nat.eqb_spec m c); [easy|].
    destruct (existsb (Nat.eqb m) (h_children h b)) eqn:E1; [apply Hbb in E1; easy|]. rewrite andb_false_r.
    destruct (Nat.eqb_spec m b); easy.
Qed.
Print Assumptions C58_replace.

(** [Reparent]. *)
Theorem C58_reparent : forall h c np root, reached h -> c < h_size h -> np < h_size h -> c <> np ->
  (h_parent h c = None -> root = Some c) ->
  exists h' root', reparent (h_size h) h c np root = Ok (h', root') /\ forest h' /\ reparent_effect h c np root h' root'.
Proof. intros h c np root H Hc Hn Hne. apply reparent_spec; auto. now apply reached_forest. Qed.
Print Assumptions C58_reparent.

(** Traversals visit each node of the subtree once; ancestors come first, or last. *)
Theorem C58_preorder : forall h n, reached h -> n < h_size h ->
  exists l, preorder (h_size h) h n = Ok l /\ visits h n l /\ (forall a b, owns h n a -> above h a b -> before l a b).
Proof.
  intros h n H Hn. destruct (reached_forest h H) as [F _]. destruct (fo_ends h F n) as [d Hd].
  apply (preorder_visits h F (h_size h) n d); auto with arith.
Qed.
Print Assumptions C58_preorder.
Theorem C58_postorder : forall h n, reached h -> n < h_size h ->
  exists l, postorder (h_size h) h n = Ok l /\ visits h n l /\ (forall a b, owns h n a -> above h a b -> before l b a).
Proof.
  intros h n H Hn. destruct (reached_forest h H) as [F _]. destruct (fo_ends h F n) as [d Hd].
  apply (postorder_visits h F (h_size h) n d); auto with arith.
Qed.
Print Assumptions C58_postorder.

(** [GetPrevious] and [GetNext] are the neighbours in the vector of siblings. *)
Theorem C58_siblings : forall h n m, reached h ->
  (get_previous h n = Some m <-> exists p l1 l2, h_children h p = l1 ++ m :: n :: l2) /\
  (get_next h n = Some m <-> exists p l1 l2, h_children h p = l1 ++ n :: m :: l2).
Proof. intros h n m H. destruct (reached_forest h H) as [F _]. split; [now apply previous_spec|now apply next_spec]. Qed.
Print Assumptions C58_siblings.

(** A reached tree: 0 owns 1 and 2, 1 owns 3; then node 0 is reparented to 3, which is below it. *)
Definition tree4 : heap :=
  add_child (add_child (add_child (fst (new_node (fst (new_node (fst (new_node (fst (new_node h_empty)))))))) 0 1) 0 2) 1 3.
Lemma not_owned_leaf h n p : h_children h n = [] -> p <> n -> ~ owns h n p.
Proof.
  intros Hc Hp Ho. apply owns_children in Ho as [|(c & Hi & _)]; [easy|]. rewrite Hc in Hi. easy.
Qed.
Example C58_tree4_reached : reached tree4.
Proof.
  unfold tree4. repeat match goal with
  | |- reached (add_child ?h ?p ?n) => apply (reached_step h (NAdd p n) 0)
  | |- reached (fst (new_node ?h)) => apply (reached_step h NNew 0)
  | |- reached h_empty => constructor
  | |- allowed _ NNew => exact I
  | |- allowed _ (NAdd _ _) => cbn [allowed]; split; [vm_compute; auto with arith|]; split; [vm_compute; auto with arith|]; split; [reflexivity|];
      apply not_owned_leaf; [reflexivity|discriminate]
  | |- nstep _ _ _ = _ => reflexivity
  end.
Qed.
Example C58_tree4 : preorder 4 tree4 0 = Ok [0; 1; 3; 2] /\ postorder 4 tree4 0 = Ok [3; 1; 2; 0] /\ get_depth 4 tree4 3 = Ok 2 /\
  get_next tree4 1 = Some 2 /\ get_previous tree4 2 = Some 1 /\
  match reparent 4 tree4 0 3 (Some 0) with
  | Ok (h, r) => r = Some 3 /\ preorder 4 h 3 = Ok [3; 0; 1; 2]
  | _ => False
  end.
Proof. repeat split; vm_compute; reflexivity. Qed.

(** Without the hypotheses: reparenting a node to itself makes it its own parent, so its depth is never computed; and
    a replacing node loses the children it had. *)
Theorem C58_reparent_to_itself_refuted : exists h c, reached h /\ c < h_size h /\
  exists h' r, reparent (h_size h) h c c None = Ok (h', r) /\ h_parent h' c = Some c /\ forall fuel d, get_depth fuel h' c <> Ok d.
Proof.
  exists tree4, 1. split; [exact C58_tree4_reached|]. split; [vm_compute; auto with arith|].
  eexists _, _. split; [reflexivity|]. split; [reflexivity|]. intros fuel d H. apply get_depth_sound in H.
  revert H. match goal with |- ancestors ?g 1 d -> _ => assert (Hself : h_parent g 1 = Some 1) by reflexivity; generalize dependent g end.
  intros g Hself H. clear - Hself H. remember 1 as one in H.
  induction H as [n H|n p d H Ha IH]; [congruence|]. apply IH. congruence.
Qed.
Print Assumptions C58_reparent_to_itself_refuted.
Theorem C58_replace_loses_children_refuted : exists h p b c m, reached h /\ h_parent h b = Some p /\ h_parent h c = None /\ ~ owns h c p /\
  owns h c m /\ exists h', replace_child h p b c true = Some h' /\ forall a, a <> m -> ~ owns h' a m.
Proof.
  set (h := add_child (add_child (fst (new_node (fst (new_node (fst (new_node (fst (new_node h_empty)))))))) 0 1) 2 3).
  exists h, 0, 1, 2, 3. assert (R : reached h).
  { unfold h. repeat match goal with
    | |- reached (add_child ?h ?p ?n) => apply (reached_step h (NAdd p n) 0)
    | |- reached (fst (new_node ?h)) => apply (reached_step h NNew 0)
    | |- reached h_empty => constructor
    | |- allowed _ NNew => exact I
    | |- allowed _ (NAdd _ _) => cbn [allowed]; split; [vm_compute; auto with arith|]; split; [vm_compute; auto with arith|]; split; [reflexivity|];
        apply not_owned_leaf; [reflexivity|discriminate]
    | |- nstep _ _ _ = _ => reflexivity
    end. }
  split; [exact R|]. split; [reflexivity|]. split; [reflexivity|]. split; [|split].
  - intros Ho. apply owns_children in Ho as [|(c & Hi & Ho)]; [discriminate|]. destruct Hi as [<-|[]].
    revert Ho. apply not_owned_leaf; [reflexivity|discriminate].
  - apply (owns_child _ _ 2); [constructor|]. now left.
  - eexists. split; [reflexivity|]. intros a Ha Ho. inversion Ho as [|p ? Hp Hi]; subst; [easy|]. revert Hi. cbn [h_children]. unfold upd.
    destruct p as [|[|[|[|p]]]]; vm_compute; intuition congruence.
Qed.
Print Assumptions C58_replace_loses_children_refuted.
