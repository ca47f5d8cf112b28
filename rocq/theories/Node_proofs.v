From Verif Require Import Base Node_model Node_spec.

Lemma upd_same {A} (f : nat -> A) n v : upd f n v n = v.
Proof. unfold upd. now rewrite Nat.eqb_refl. Qed.
Lemma upd_other {A} (f : nat -> A) n v m : m <> n -> upd f n v m = f m.
Proof. unfold upd. intros H. destruct (Nat.eqb_spec m n); easy. Qed.

Lemma existsb_In n l : existsb (Nat.eqb n) l = true <-> In n l.
Proof.
  rewrite existsb_exists. split.
  - intros (m & H & E). apply Nat.eqb_eq in E. now subst.
  - intros H. exists n. split; auto. apply Nat.eqb_refl.
Qed.

(** ** Chains of parents *)
Lemma ancestors_det h n d1 : ancestors h n d1 -> forall d2, ancestors h n d2 -> d1 = d2.
Proof.
  induction 1 as [n H|n p d H Ha IH]; intros d2 H2; inversion H2; subst; try congruence.
  f_equal. apply IH. congruence.
Qed.
Lemma above_deeper h a n : above h a n -> forall d d', ancestors h n d -> ancestors h a d' -> d' < d.
Proof.
  induction 1 as [n p H|n p a H Ha IH]; intros d d' Hn Hd; inversion Hn; subst; try congruence;
    assert (p0 = p) by congruence; subst p0.
  - rewrite (ancestors_det _ _ _ Hd _ H1). lia.
  - specialize (IH _ _ H1 Hd). lia.
Qed.
Lemma above_irrefl h n : forest h -> ~ above h n n.
Proof. intros F H. destruct (fo_ends h F n) as [d Hd]. pose proof (above_deeper _ _ _ H _ _ Hd Hd). lia. Qed.
Lemma above_trans h a b c : above h a b -> above h b c -> above h a c.
Proof.
  intros H1 H2. induction H2 as [n p H|n p a' H Ha IH].
  - eapply above_step; eauto.
  - eapply above_step; eauto.
Qed.
Lemma owns_above h a n : forest h -> (owns h a n <-> a = n \/ above h a n).
Proof.
  intros F. split.
  - induction 1 as [|p n H IH Hin]; auto. right. apply (fo_links h F) in Hin. destruct IH as [->|IH].
    + now apply above_parent.
    + eapply above_step; eauto.
  - intros [->|H]; [constructor|]. induction H as [n p H|n p a H Ha IH].
    + eapply owns_child; [constructor|]. now apply (fo_links h F).
    + eapply owns_child; [apply IH; auto|]. now apply (fo_links h F).
Qed.

Lemma ancestors_kept h h' n d : ancestors h n d ->
  (forall a, a = n \/ above h a n -> h_parent h' a = h_parent h a) -> ancestors h' n d.
Proof.
  induction 1 as [n H|n p d H Ha IH]; intros Hk.
  - constructor. rewrite Hk; auto.
  - eapply anc_child; [rewrite Hk; eauto|]. apply IH. intros a [->|H']; apply Hk; right.
    + now apply above_parent.
    + eapply above_step; eauto.
Qed.
Lemma above_kept h h' a n : above h a n ->
  (forall b, b = n \/ (above h b n /\ above h a b) -> h_parent h' b = h_parent h b) -> above h' a n.
Proof.
  induction 1 as [n p H|n p a H Ha IH]; intros Hk.
  - apply above_parent. rewrite Hk; auto.
  - eapply above_step; [rewrite Hk; eauto|]. apply IH. intros b [->|[H1 H2]]; apply Hk; right; (split; [|auto]).
    + now apply above_parent.
    + eapply above_step; eauto.
Qed.

Lemma forest_empty : forest h_empty.
Proof.
  split; cbn; try easy.
  - intros p. constructor.
  - intros n. exists 0. now constructor.
Qed.

Lemma forest_new h : forest h -> (forall n, h_size h <= n -> h_parent h n = None /\ h_children h n = []) ->
  forest (fst (new_node h)) /\ forall n, S (h_size h) <= n -> h_parent (fst (new_node h)) n = None /\ h_children (fst (new_node h)) n = [].
Proof.
  intros F Hf. destruct (Hf (h_size h) (le_n _)) as [Hp Hc].
  assert (Ep : forall n, h_parent (fst (new_node h)) n = h_parent h n).
  { intros n. cbn. destruct (Nat.eq_dec n (h_size h)) as [->|]; [now rewrite upd_same|now rewrite upd_other]. }
  assert (Ec : forall n, h_children (fst (new_node h)) n = h_children h n).
  { intros n. cbn. destruct (Nat.eq_dec n (h_size h)) as [->|]; [now rewrite upd_same|now rewrite upd_other]. }
  split.
  - split.
    + intros n p. rewrite Ep, Ec. apply (fo_links h F).
    + intros p. rewrite Ec. apply (fo_once h F).
    + intros n. destruct (fo_ends h F n) as [d Hd]. exists d. eapply ancestors_kept; eauto.
    + intros n p. rewrite Ep. intros H. apply (fo_alloc h F) in H. cbn. lia.
  - intros n Hn. rewrite Ep, Ec. apply Hf. lia.
Qed.

(** ** AddChild *)
Lemma add_parent h p n m : h_parent (add_child h p n) m = if Nat.eqb m n then Some p else h_parent h m.
Proof. reflexivity. Qed.

Lemma forest_add h p n : forest h -> n < h_size h -> p < h_size h -> h_parent h n = None -> ~ owns h n p -> forest (add_child h p n).
Proof.
  intros F Hn Hp Hr Ho. split.
  - intros m q. cbn [add_child h_parent h_children]. unfold upd.
    destruct (Nat.eqb_spec m n) as [->|Hmn], (Nat.eqb_spec q p) as [->|Hqp].
    + split; auto. intros _. apply in_or_app. cbn. auto.
    + split; [congruence|]. intros H. apply (fo_links h F) in H. congruence.
    + rewrite (fo_links h F), in_app_iff. cbn. intuition congruence.
    + apply (fo_links h F).
  - intros q. cbn [add_child h_children]. unfold upd. destruct (Nat.eqb_spec q p) as [->|]; [|apply (fo_once h F)].
    apply NoDup_app_remove_l with (l := []) || idtac. rewrite <- (rev_involutive (h_children h p ++ [n])). rewrite rev_unit.
    apply NoDup_rev. constructor; [|apply NoDup_rev, (fo_once h F)]. rewrite <- in_rev. intros H. apply (fo_links h F) in H. congruence.
  - assert (Hp' : exists d, ancestors (add_child h p n) p d).
    { destruct (fo_ends h F p) as [d Hd]. exists d. eapply ancestors_kept; eauto. intros a Ha. rewrite add_parent.
      destruct (Nat.eqb_spec a n) as [->|]; auto. destruct Ho. now apply owns_above. }
    destruct Hp' as [dp Hdp]. intros m. destruct (fo_ends h F m) as [d Hd]. induction Hd as [m H|m q d H Ha [d' IH]].
    + destruct (Nat.eq_dec m n) as [->|Hne].
      * exists (S dp). eapply anc_child; [|exact Hdp]. rewrite add_parent. now rewrite Nat.eqb_refl.
      * exists 0. constructor. rewrite add_parent. destruct (Nat.eqb_spec m n); [easy|auto].
    + exists (S d'). eapply anc_child; [|exact IH]. rewrite add_parent. destruct (Nat.eqb_spec m n); [congruence|auto].
  - intros m q. rewrite add_parent. cbn [add_child h_size]. destruct (Nat.eqb_spec m n) as [->|]; [|apply (fo_alloc h F)].
    intros H. injection H as <-. auto.
Qed.

(** ** RemoveChild *)
Lemma erase_first_In n l m : NoDup l -> (In m (erase_first n l) <-> In m l /\ m <> n).
Proof.
  induction 1 as [|a l Hn Hd IH]; cbn; [tauto|]. destruct (Nat.eqb_spec a n) as [->|Hne].
  - split; [intros H; split; auto; congruence|]. intros [[<-|H] H']; [easy|auto].
  - cbn. rewrite IH. split; [intros [<-|H]; tauto|]. intros [[<-|H] H']; auto.
Qed.
Lemma erase_first_NoDup n l : NoDup l -> NoDup (erase_first n l).
Proof.
  induction 1 as [|a l Hn Hd IH]; cbn; [constructor|]. destruct (Nat.eqb a n); auto. constructor; auto.
  rewrite erase_first_In by auto. tauto.
Qed.

Lemma remove_child_some h p n h' : remove_child h p n = Some h' ->
  In n (h_children h p) /\ h_size h' = h_size h /\ h_parent h' = upd (h_parent h) n None /\
  h_children h' = upd (h_children h) p (erase_first n (h_children h p)).
Proof.
  unfold remove_child. destruct (existsb (Nat.eqb n) (h_children h p)) eqn:E; [|discriminate].
  apply existsb_In in E. intros H. injection H as <-. auto.
Qed.
Lemma remove_child_ok h p n : In n (h_children h p) -> exists h', remove_child h p n = Some h'.
Proof. intros H. apply existsb_In in H. unfold remove_child. rewrite H. eauto. Qed.

Lemma forest_remove h p n h' : forest h -> remove_child h p n = Some h' -> forest h'.
Proof.
  intros F H. apply remove_child_some in H as (Hin & Hs & Hp & Hc). pose proof (proj2 (fo_links h F n p) Hin) as Hpn.
  split.
  - intros m q. rewrite Hp, Hc. unfold upd. destruct (Nat.eqb_spec m n) as [->|Hmn], (Nat.eqb_spec q p) as [->|Hqp].
    + split; [discriminate|]. rewrite erase_first_In by apply (fo_once h F). intuition congruence.
    + split; [discriminate|]. intros H. apply (fo_links h F) in H. congruence.
    + rewrite erase_first_In by apply (fo_once h F). rewrite (fo_links h F). intuition.
    + apply (fo_links h F).
  - intros q. rewrite Hc. unfold upd. destruct (Nat.eqb_spec q p); [|apply (fo_once h F)]. apply erase_first_NoDup, (fo_once h F).
  - intros m. destruct (fo_ends h F m) as [d Hd]. induction Hd as [m H|m q d H Ha [d' IH]].
    + exists 0. constructor. rewrite Hp. unfold upd. destruct (Nat.eqb m n); auto.
    + destruct (Nat.eq_dec m n) as [->|Hne].
      * exists 0. constructor. rewrite Hp. apply upd_same.
      * exists (S d'). eapply anc_child; [|exact IH]. rewrite Hp, upd_other; auto.
  - intros m q. rewrite Hp, Hs. unfold upd. destruct (Nat.eqb m n); [discriminate|]. apply (fo_alloc h F).
Qed.

(** ** ReplaceChild *)
Lemma replace_first_In n v l m : NoDup l -> In n l -> ~ In v l -> (In m (replace_first n v l) <-> m = v \/ (In m l /\ m <> n)).
Proof.
  induction l as [|a l IH]; intros Hd Hi Hv; [easy|]. inversion Hd as [|? ? Hn Hd']; subst. cbn. destruct (Nat.eqb_spec a n) as [->|Hne].
  - cbn. split.
    + intros [<-|H]; auto. right. split; auto. congruence.
    + intros [->|[[<-|H] H']]; auto. easy.
  - destruct Hi as [|Hi]; [congruence|]. cbn. rewrite IH; auto; [|intros H; apply Hv; now right]. split.
    + intros [<-|[->|H]]; [right; auto|auto|tauto].
    + intros [->|[[<-|H] H']]; auto. 
Qed.
Lemma replace_first_NoDup n v l : NoDup l -> In n l -> ~ In v l -> NoDup (replace_first n v l).
Proof.
  induction l as [|a l IH]; intros Hd Hi Hv; [easy|]. inversion Hd as [|? ? Hn Hd']; subst. cbn. destruct (Nat.eqb_spec a n) as [->|Hne].
  - constructor; auto. intros H. apply Hv. now right.
  - destruct Hi as [|Hi]; [congruence|]. assert (Hv' : ~ In v l) by (intros H; apply Hv; now right). constructor; auto.
    rewrite replace_first_In by auto. intros [->|[H _]]; [apply Hv; now left|auto].
Qed.

Lemma replace_parent h p b c adopt h' : replace_child h p b c adopt = Some h' -> In b (h_children h p) /\ h_size h' = h_size h /\
  (forall m, h_parent h' m = if Nat.eqb m c then Some p
                             else if adopt && existsb (Nat.eqb m) (h_children h b) then Some c
                             else if Nat.eqb m b then None else h_parent h m) /\
  (forall q, h_children h' q = if Nat.eqb q p then replace_first b c (h_children h p)
                               else if adopt && Nat.eqb q b then []
                               else if adopt && Nat.eqb q c then h_children h b else h_children h q).
Proof.
  unfold replace_child. destruct (existsb (Nat.eqb b) (h_children h p)) eqn:E; [|discriminate]. apply existsb_In in E.
  intros H. injection H as <-. cbn [h_size h_parent h_children]. split; auto. split; auto. unfold upd. destruct adopt; cbn [andb]; split; auto.
Qed.

Lemma forest_replace h p b c adopt h' : forest h -> p < h_size h -> c < h_size h -> h_parent h c = None -> ~ owns h c p ->
  (adopt = true -> h_children h c = []) -> replace_child h p b c adopt = Some h' -> forest h'.
Proof.
  intros F Hp Hc Hr Ho Ha H. apply replace_parent in H as (Hin & Hs & Pa & Ch).
  pose proof (proj2 (fo_links h F b p) Hin) as Hpb.
  assert (Hbc : b <> c) by congruence.
  assert (Hpb' : p <> b). { intros ->. apply (above_irrefl h b F). now apply above_parent. }
  assert (Hpc : p <> c). { intros ->. apply Ho. constructor. }
  assert (Hcp : forall q, ~ In c (h_children h q)). { intros q Hx. apply (fo_links h F) in Hx. congruence. }
  (* children of b in a boolean form *)
  assert (Hbb : forall m, existsb (Nat.eqb m) (h_children h b) = true <-> h_parent h m = Some b).
  { intros m. rewrite existsb_In. symmetry. apply (fo_links h F). }
  split.
  - intros m q. rewrite Pa, Ch.
    destruct (Nat.eqb_spec m c) as [->|Hmc].
    { destruct (Nat.eqb_spec q p) as [->|Hqp].
      - rewrite replace_first_In; auto using (fo_once h F). tauto.
      - split; [congruence|]. intros Hx. exfalso. destruct (adopt && Nat.eqb q b); [easy|]. destruct (adopt && Nat.eqb q c); now apply Hcp in Hx. }
    destruct (adopt && existsb (Nat.eqb m) (h_children h b)) eqn:E1.
    { apply andb_true_iff in E1 as [-> E1]. apply Hbb in E1. cbn [andb]. destruct (Nat.eqb_spec q p) as [->|Hqp].
      - split; [congruence|]. rewrite replace_first_In; auto using (fo_once h F). intros [->|[Hx _]]; [easy|].
        apply (fo_links h F) in Hx. congruence.
      - destruct (Nat.eqb_spec q b) as [->|Hqb]; [split; [congruence|easy]|].
        destruct (Nat.eqb_spec q c) as [->|Hqc].
        + split; auto. intros _. now apply (fo_links h F).
        + split; [congruence|]. intros Hx. apply (fo_links h F) in Hx. congruence. }
    destruct (Nat.eqb_spec m b) as [->|Hmb].
    { split; [discriminate|]. destruct (Nat.eqb_spec q p) as [->|Hqp].
      - rewrite replace_first_In; auto using (fo_once h F). intros [|[_ Hx]]; easy.
      - destruct (adopt && Nat.eqb q b); [easy|]. destruct (adopt && Nat.eqb q c).
        + intros Hx. exfalso. apply (fo_links h F) in Hx. congruence.
        + intros Hx. apply (fo_links h F) in Hx. congruence. }
    destruct (Nat.eqb_spec q p) as [->|Hqp].
    { rewrite replace_first_In; auto using (fo_once h F). rewrite (fo_links h F). intuition congruence. }
    destruct (adopt && Nat.eqb q b) eqn:E2.
    { apply andb_true_iff in E2 as [-> E2]. apply Nat.eqb_eq in E2. subst q. cbn [andb] in E1.
      split; [|easy]. intros Hx. apply Hbb in Hx. congruence. }
    destruct (adopt && Nat.eqb q c) eqn:E3.
    { apply andb_true_iff in E3 as [-> E3]. apply Nat.eqb_eq in E3. subst q. cbn [andb] in E1. rewrite <- (fo_links h F).
      split.
      - intros Hx. apply (fo_links h F) in Hx. rewrite Ha in Hx by auto. easy.
      - intros Hx. apply Hbb in Hx. congruence. }
    apply (fo_links h F).
  - intros q. rewrite Ch. destruct (Nat.eqb_spec q p) as [->|Hqp]; [apply replace_first_NoDup; auto using (fo_once h F)|].
    destruct (adopt && Nat.eqb q b); [constructor|]. destruct (adopt && Nat.eqb q c); apply (fo_once h F).
  - assert (Hp' : exists d, ancestors h' p d).
    { destruct (fo_ends h F p) as [d Hd]. exists d. eapply ancestors_kept; eauto. intros a Hx. rewrite Pa.
      assert (Hab : a <> b). { intros ->. apply (above_irrefl h p F). destruct Hx as [<-|Hx]; [easy|]. eapply above_trans; [|exact Hx]. now apply above_parent. }
      destruct (Nat.eqb_spec a c) as [->|Hac].
      { destruct Ho. apply owns_above; auto. }
      destruct (adopt && existsb (Nat.eqb a) (h_children h b)) eqn:E1.
      - apply andb_true_iff in E1 as [_ E1]. apply Hbb in E1. exfalso. apply (above_irrefl h p F).
        assert (Hy : above h b p) by (destruct Hx as [->|Hx]; [now apply above_parent|eapply above_trans; [apply above_parent; exact E1|exact Hx]]).
        eapply above_trans; [|exact Hy]. now apply above_parent.
      - destruct (Nat.eqb_spec a b); easy. }
    destruct Hp' as [dp Hdp].
    assert (Hc' : ancestors h' c (S dp)). { eapply anc_child; [|exact Hdp]. rewrite Pa. now rewrite Nat.eqb_refl. }
    intros m. destruct (fo_ends h F m) as [d Hd].
    assert (Hcase : forall m, h_parent h' m = h_parent h m \/ h_parent h' m = Some p \/ h_parent h' m = Some c \/ h_parent h' m = None).
    { intros x. rewrite Pa. destruct (Nat.eqb x c); auto. destruct (adopt && _); auto. destruct (Nat.eqb x b); auto. }
    induction Hd as [m H|m q d H Hq [d' IH]].
    + destruct (Hcase m) as [E|[E|[E|E]]].
      * exists 0. constructor. congruence.
      * exists (S dp). eapply anc_child; eauto.
      * exists (S (S dp)). eapply anc_child; eauto.
      * exists 0. now constructor.
    + destruct (Hcase m) as [E|[E|[E|E]]].
      * exists (S d'). eapply anc_child; [rewrite E; exact H|exact IH].
      * exists (S dp). eapply anc_child; eauto.
      * exists (S (S dp)). eapply anc_child; eauto.
      * exists 0. now constructor.
  - intros m q. rewrite Pa, Hs. destruct (Nat.eqb_spec m c) as [->|]; [intros H; injection H as <-; auto|].
    destruct (adopt && existsb (Nat.eqb m) (h_children h b)) eqn:E1.
    + apply andb_true_iff in E1 as [_ E1]. apply Hbb in E1. intros H. injection H as <-. apply (fo_alloc h F) in E1. tauto.
    + destruct (Nat.eqb m b); [discriminate|]. apply (fo_alloc h F).
Qed.

(** ** Depth and ancestry *)
Lemma owns_trans h a b c : owns h a b -> owns h b c -> owns h a c.
Proof. intros H1 H2. induction H2; auto. eapply owns_child; eauto. Qed.

Lemma chain_list h n d : forest h -> ancestors h n d ->
  exists l, length l = S d /\ NoDup l /\ forall a, In a l -> a = n \/ above h a n.
Proof.
  intros F. induction 1 as [n H|n p d H Ha (l & Hl & Hd & Hi)].
  - exists [n]. split; auto. split; [repeat constructor; easy|]. intros a [->|[]]; auto.
  - exists (n :: l). split; [cbn; lia|]. assert (Hup : forall a, In a l -> above h a n).
    { intros a Hx. destruct (Hi a Hx) as [->|Hy]; [now apply above_parent|eapply above_step; eauto]. }
    split.
    + constructor; auto. intros Hx. apply (above_irrefl h n F). auto.
    + intros a [->|Hx]; auto.
Qed.
Lemma above_alloc h a n : forest h -> above h a n -> a < h_size h.
Proof. intros F. induction 1; auto. eapply (fo_alloc h F); eauto. Qed.
Lemma depth_lt h n d : forest h -> n < h_size h -> ancestors h n d -> d < h_size h.
Proof.
  intros F Hn H. destruct (chain_list h n d F H) as (l & Hl & Hd & Hi).
  assert (Hx : length l <= length (seq 0 (h_size h))).
  { apply NoDup_incl_length; auto. intros a Ha. apply in_seq. destruct (Hi a Ha) as [->|Hy]; [lia|]. apply (above_alloc h a n) in Hy; auto. lia. }
  rewrite seq_length in Hx. lia.
Qed.

Lemma get_depth_ok h n d : ancestors h n d -> forall fuel, d < fuel -> get_depth fuel h n = Ok d.
Proof.
  unfold get_depth. induction 1 as [n H|n p d H Ha IH]; intros [|k] Hk; try lia; cbn [depth_from]; rewrite H; auto.
  rewrite IH by lia. reflexivity.
Qed.
Lemma get_depth_sound h fuel : forall n d, get_depth fuel h n = Ok d -> ancestors h n d.
Proof.
  unfold get_depth. induction fuel as [|k IH]; intros n d; cbn [depth_from]; [discriminate|].
  destruct (h_parent h n) as [p|] eqn:E.
  - destruct (depth_from k h (h_parent h p)) eqn:E'; cbn; try discriminate. intros H. injection H as <-. eapply anc_child; eauto.
  - intros H. injection H as <-. now constructor.
Qed.

Lemma is_descendant_ok h n d a : ancestors h n d -> forall fuel, d < fuel ->
  exists b, is_descendant_of fuel h n a = Ok b /\ (b = true <-> above h a n).
Proof.
  unfold is_descendant_of. induction 1 as [n H|n p d H Ha IH]; intros [|k] Hk; try lia; cbn [descendant_from]; rewrite H.
  - exists false. split; auto. split; [discriminate|]. intros Hx. inversion Hx; congruence.
  - destruct (Nat.eqb_spec p a) as [->|Hne].
    + exists true. split; auto. split; auto. intros _. now apply above_parent.
    + destruct (IH k) as (b & E & Hb); [lia|]. exists b. split; auto. rewrite Hb. split.
      * intros Hx. eapply above_step; eauto.
      * intros Hx. inversion Hx; subst; [congruence|]. now assert (p0 = p) by congruence; subst.
Qed.
Lemma is_descendant_sound h a fuel : forall n b, is_descendant_of fuel h n a = Ok b -> (b = true <-> above h a n).
Proof.
  unfold is_descendant_of. induction fuel as [|k IH]; intros n b; cbn [descendant_from]; [discriminate|].
  destruct (h_parent h n) as [p|] eqn:E.
  - destruct (Nat.eqb_spec p a) as [->|Hne].
    + intros H. injection H as <-. split; auto. intros _. now apply above_parent.
    + intros H. apply IH in H. rewrite H. split.
      * intros Hx. eapply above_step; eauto.
      * intros Hx. inversion Hx; subst; [congruence|]. now assert (p0 = p) by congruence; subst.
  - intros H. injection H as <-. split; [discriminate|]. intros Hx. inversion Hx; congruence.
Qed.

(** ** Reparent *)
Lemma above_mono h h' a n : (forall m q, h_parent h' m = Some q -> h_parent h m = Some q) -> above h' a n -> above h a n.
Proof. intros Hm. induction 1; [apply above_parent|eapply above_step]; eauto. Qed.

Definition reparent_rest (fuel : nat) (h1 : heap) (np c : nat) (old scope root1 : option nat) : res (heap * option nat) :=
  do desc <- is_descendant_of fuel h1 np c;
  do y <- (if desc then
             do h' <- take_child h1 (h_parent h1 np) np;
             match old with
             | Some q => Ok (add_child h' q np, root1)
             | None => Ok (h', Some np)
             end
           else Ok (h1, root1));
  let '(h2, root2) := y in
  match scope with
  | None => UB
  | Some c => Ok (add_child h2 np c, root2)
  end.

Lemma reparent_aux h1 c np root1 fuel (old : option nat) :
  forest h1 -> h_parent h1 c = None -> c < h_size h1 -> np < h_size h1 -> c <> np -> h_size h1 <= fuel ->
  (forall o, old = Some o -> o < h_size h1 /\ o <> np /\ ~ above h1 np o /\ o <> c /\ ~ above h1 c o) ->
  exists h' root', reparent_rest fuel h1 np c old (Some c) root1 = Ok (h', root') /\ forest h' /\ h_size h' = h_size h1 /\ h_parent h' c = Some np /\
    (above h1 c np -> h_parent h' np = old) /\
    (forall m, m <> c -> m <> np \/ ~ above h1 c np -> h_parent h' m = h_parent h1 m) /\
    (above h1 c np -> root' = match old with Some _ => root1 | None => Some np end) /\
    (~ above h1 c np -> root' = root1).
Proof.
  intros F Hr Hc Hnp Hne Hf Ho. unfold reparent_rest. destruct (fo_ends h1 F np) as [d Hd].
  pose proof (depth_lt h1 np d F Hnp Hd) as Hlt.
  destruct (is_descendant_ok h1 np d c Hd fuel) as (b & -> & Hb); [lia|]. cbn [bind]. destruct b.
  - assert (Hab : above h1 c np) by now apply Hb.
    destruct (h_parent h1 np) as [p|] eqn:Ep; [|inversion Hab; congruence]. cbn [take_child].
    pose proof (proj1 (fo_links h1 F np p) Ep) as Hin. destruct (remove_child_ok h1 p np Hin) as [h2 E2]. rewrite E2. cbn [bind].
    pose proof (forest_remove _ _ _ _ F E2) as F2. apply remove_child_some in E2 as (_ & Hs2 & Hp2 & _).
    assert (Hm2 : forall m q, h_parent h2 m = Some q -> h_parent h1 m = Some q).
    { intros m o. rewrite Hp2. unfold upd. destruct (Nat.eqb m np); [discriminate|auto]. }
    assert (Hnp2 : h_parent h2 np = None) by (rewrite Hp2; apply upd_same).
    assert (Hc2 : h_parent h2 c = None) by (rewrite Hp2, upd_other; auto).
    destruct old as [o|].
    + destruct (Ho o eq_refl) as (Ho1 & Ho2 & Ho3 & Ho4 & Ho5). cbn [bind].
      assert (F3 : forest (add_child h2 o np)).
      { apply forest_add; auto; try lia. intros Hx. apply owns_above in Hx; auto. destruct Hx as [->|Hx]; [easy|].
        apply Ho3. eapply above_mono; eauto. }
      assert (P3 : forall m, h_parent (add_child h2 o np) m = if Nat.eqb m np then Some o else h_parent h1 m).
      { intros m. rewrite add_parent. destruct (Nat.eqb_spec m np); auto. rewrite Hp2, upd_other; auto. }
      assert (F4 : forest (add_child (add_child h2 o np) np c)).
      { apply forest_add; auto; cbn [add_child h_size]; try lia.
        - rewrite P3. destruct (Nat.eqb_spec c np); [easy|auto].
        - intros Hx. apply owns_above in Hx; auto. destruct Hx as [Hx|Hx]; [easy|].
          assert (Hco : above (add_child h2 o np) c o).
          { inversion Hx as [? ? Hy|? ? ? Hy Hz]; subst; rewrite P3, Nat.eqb_refl in Hy.
            - congruence.
            - injection Hy as <-. exact Hz. }
          apply Ho5. apply (above_mono _ h2); auto. eapply above_kept; [exact Hco|]. intros x Hy. rewrite add_parent.
          destruct (Nat.eqb_spec x np) as [->|]; auto. exfalso. destruct Hy as [Hy|[Hy _]]; [congruence|].
          apply (above_irrefl _ o F3). eapply above_trans; [|exact Hy]. apply above_parent. now rewrite P3, Nat.eqb_refl. }
      exists (add_child (add_child h2 o np) np c), root1. split; auto. split; auto. split; [exact Hs2|].
      assert (P4 : forall m, h_parent (add_child (add_child h2 o np) np c) m = if Nat.eqb m c then Some np else if Nat.eqb m np then Some o else h_parent h1 m).
      { intros m. rewrite add_parent. destruct (Nat.eqb m c); auto. }
      split; [now rewrite P4, Nat.eqb_refl|]. split; [|split; [|split; easy]].
      * intros _. rewrite P4. destruct (Nat.eqb_spec np c); [congruence|]. now rewrite Nat.eqb_refl.
      * intros m H1 [H2|H2]; [|easy]. rewrite P4. destruct (Nat.eqb_spec m c); [easy|]. destruct (Nat.eqb_spec m np); easy.
    + cbn [bind]. assert (F4 : forest (add_child h2 np c)).
      { apply forest_add; auto; try lia. intros Hx. apply owns_above in Hx; auto. destruct Hx as [Hx|Hx]; [easy|]. inversion Hx; congruence. }
      exists (add_child h2 np c), (Some np). split; auto. split; auto. split; [exact Hs2|].
      assert (P4 : forall m, h_parent (add_child h2 np c) m = if Nat.eqb m c then Some np else if Nat.eqb m np then None else h_parent h1 m).
      { intros m. rewrite add_parent. destruct (Nat.eqb m c); auto. now rewrite Hp2. }
      split; [now rewrite P4, Nat.eqb_refl|]. split; [|split; [|split; easy]].
      * intros _. rewrite P4. destruct (Nat.eqb_spec np c); [congruence|]. now rewrite Nat.eqb_refl.
      * intros m H1 [H2|H2]; [|easy]. rewrite P4. destruct (Nat.eqb_spec m c); [easy|]. destruct (Nat.eqb_spec m np); easy.
  - cbn [bind]. assert (Hab : ~ above h1 c np) by (intros Hx; apply Hb in Hx; discriminate).
    exists (add_child h1 np c), root1. split; auto. split.
    { apply forest_add; auto. intros Hx. apply owns_above in Hx; auto. tauto. }
    split; auto. split; [now rewrite add_parent, Nat.eqb_refl|]. split; [easy|]. split; [|easy].
    intros m H1 _. rewrite add_parent. destruct (Nat.eqb_spec m c); easy.
Qed.

Lemma reparent_spec h c np root fuel : forest h -> c < h_size h -> np < h_size h -> c <> np -> h_size h <= fuel ->
  (h_parent h c = None -> root = Some c) ->
  exists h' root', reparent fuel h c np root = Ok (h', root') /\ forest h' /\ reparent_effect h c np root h' root'.
Proof.
  intros F Hc Hnp Hne Hf Hroot. unfold reparent, reparent_effect.
  destruct (h_parent h c) as [q|] eqn:Ec.
  - pose proof (proj1 (fo_links h F c q) Ec) as Hin. destruct (remove_child_ok h q c Hin) as [h1 E1].
    cbn [take_child]. rewrite E1. cbn [bind]. pose proof (forest_remove _ _ _ _ F E1) as F1.
    apply remove_child_some in E1 as (_ & Hs & Hp & _).
    assert (Hm : forall m o, h_parent h1 m = Some o -> h_parent h m = Some o).
    { intros m o. rewrite Hp. unfold upd. destruct (Nat.eqb m c); [discriminate|auto]. }
    assert (Hab : above h1 c np <-> above h c np).
    { split; [apply above_mono; auto|]. intros Hx. eapply above_kept; [exact Hx|]. intros b Hb. rewrite Hp, upd_other; auto.
      intros ->. destruct Hb as [Hb|[_ Hb]]; [easy|]. now apply (above_irrefl h c F). }
    assert (Hqc : above h q c) by now apply above_parent.
    (* np is not an ancestor of the old parent, when it is below c *)
    destruct (fo_ends h1 F1 np) as [d Hd]. assert (Hlt : d < h_size h1) by (apply (depth_lt h1 np d F1); auto; lia).
    destruct (is_descendant_ok h1 np d c Hd fuel) as (b & Eb & Hb); [lia|]. destruct b.
    + assert (Hcn : above h c np) by (apply Hab, Hb; auto).
      destruct (reparent_aux h1 c np root fuel (Some q) F1)
        as (h' & r' & E & F' & Hs' & Hpc & Hn & Ho & Hr1 & Hr2); try lia; auto.
      * rewrite Hp. apply upd_same.
      * intros o Hx. injection Hx as <-. split; [apply (fo_alloc h F) in Ec; lia|]. split.
        { intros ->. apply (above_irrefl h np F). eapply above_trans; eauto. }
        split.
        { intros Hx. apply (above_mono h) in Hx; auto. apply (above_irrefl h q F). eapply above_trans; [exact Hqc|]. eapply above_trans; eauto. }
        split.
        { intros ->. now apply (above_irrefl h c F). }
        { intros Hx. apply (above_mono h) in Hx; auto. apply (above_irrefl h q F). eapply above_trans; eauto. }
      * exists h', r'. split; [exact E|]. split; auto. split; [lia|]. split; auto. split; [tauto|]. split.
        { intros m H1 [H2|H2]; [|easy]. rewrite Ho by auto. rewrite Hp, upd_other; auto. }
        split; [intros _; apply Hr1; now apply Hab|]. split; intros; easy.
    + assert (Hcn : ~ above h c np) by (intros Hx; apply Hab in Hx; apply Hb in Hx; discriminate).
      rewrite Eb. cbn [bind]. exists (add_child h1 np c), root. split; auto. split.
      { apply forest_add; auto; try lia. - rewrite Hp. apply upd_same.
        - intros Hx. apply owns_above in Hx; auto. tauto. }
      split; [exact Hs|]. split; [now rewrite add_parent, Nat.eqb_refl|]. split; [easy|]. split; [|split; easy].
      intros m H1 _. rewrite add_parent. destruct (Nat.eqb_spec m c); [easy|]. rewrite Hp, upd_other; auto.
  - cbn [bind]. rewrite (Hroot eq_refl). destruct (reparent_aux h c np None fuel None F)
        as (h' & r' & E & F' & Hs' & Hpc & Hn & Ho & Hr1 & Hr2); try lia; auto; [intros o Ho; discriminate Ho|].
    exists h', r'. split; [exact E|]. split; auto. split; auto. split; auto. split; auto. split; auto. split; [easy|]. split; auto.
Qed.

(** ** Reached heaps *)
Lemma reached_forest h : reached h -> forest h /\ forall n, h_size h <= n -> h_parent h n = None /\ h_children h n = [].
Proof.
  induction 1 as [|h x fuel h' H [F Hn] Ha Hs]; [split; [apply forest_empty|auto]|].
  assert (Hfree : forall g, forest g -> forall n, h_size g <= n -> h_parent g n = None /\ h_children g n = []).
  { intros g G n Hx. split.
    - destruct (h_parent g n) as [q|] eqn:E; auto. destruct (fo_alloc g G n q E). lia.
    - destruct (h_children g n) as [|a l] eqn:E; auto. assert (Hy : In a (h_children g n)) by (rewrite E; now left).
      apply (fo_links g G) in Hy. destruct (fo_alloc g G a n Hy). lia. }
  assert (G : forest h'); [|split; auto]. destruct x as [|p n|p n|p b c adopt|c np]; cbn [nstep allowed] in *.
  - injection Hs as <-. exact (proj1 (forest_new h F Hn)).
  - injection Hs as <-. destruct Ha as (H1 & H2 & H3 & H4). now apply forest_add.
  - destruct (remove_child h p n) eqn:E; injection Hs as <-; auto. eapply forest_remove; eauto.
  - destruct Ha as (H0 & H1 & H2 & H3 & H4 & H5). destruct (replace_child h p b c adopt) eqn:E; injection Hs as <-; auto.
    exact (forest_replace h p b c adopt _ F H1 H2 H3 H4 H5 E).
  - destruct Ha as (H1 & H2 & H3).
    (* more fuel gives the same result *)
    assert (Hmono : forall k g o a b, descendant_from k g o a = Ok b -> forall j, k <= j -> descendant_from j g o a = Ok b).
    { induction k as [|k IH]; cbn [descendant_from]; [discriminate|]. intros g o a b E [|j] Hj; [lia|]. cbn [descendant_from].
      destruct o as [q|]; auto. destruct (Nat.eqb q a); auto. apply IH; auto. lia. }
    destruct (reparent_spec h c np (match h_parent h c with None => Some c | Some _ => None end) (fuel + h_size h) F H1 H2 H3) as (g & r & E & G & _);
      [lia| |].
    { intros ->. auto. }
    destruct (reparent fuel h c np _) as [[g' r']| | |] eqn:E'; cbn in Hs; try discriminate. injection Hs as <-.
    enough (g' = g) by now subst.
    revert E E'. unfold reparent. destruct (match h_parent h c with Some q => _ | None => _ end) as [[[h1 cs] r1]| | |] in |- *; cbn [bind]; try discriminate.
    unfold is_descendant_of. destruct (descendant_from fuel h1 (h_parent h1 np) c) as [b| | |] eqn:Eb; cbn [bind]; try discriminate.
    rewrite (Hmono _ _ _ _ _ Eb (fuel + h_size h)) by lia. cbn [bind]. intros E E'. congruence.
Qed.

Lemma one_root h n : forest h -> exists r, h_parent h r = None /\ owns h r n /\
  forall r', h_parent h r' = None -> owns h r' n -> r' = r.
Proof.
  intros F. destruct (fo_ends h F n) as [d Hd]. induction Hd as [n H|n p d H Ha (r & H1 & H2 & H3)].
  - exists n. split; auto. split; [constructor|]. intros r' Hr Ho. inversion Ho as [|p ? Hp Hi]; subst; auto.
    apply (fo_links h F) in Hi. congruence.
  - exists r. split; auto. split; [eapply owns_child; eauto; now apply (fo_links h F)|]. intros r' Hr Ho. apply H3; auto.
    inversion Ho as [|p' ? Hp Hi]; subst; [congruence|]. apply (fo_links h F) in Hi. now assert (p' = p) by congruence; subst.
Qed.

(** ** Traversals *)
Definition unres (r : res (list nat)) : list nat := match r with Ok l => l | _ => [] end.
Lemma fold_children (g : nat -> res (list nat)) l : (forall c, In c l -> exists lc, g c = Ok lc) ->
  fold_right (fun c acc => do l <- acc; do lc <- g c; Ok (lc ++ l)) (Ok []) l = Ok (flat_map (fun c => unres (g c)) l).
Proof.
  induction l as [|a l IH]; intros H; cbn; auto. rewrite IH by (intros c Hc; apply H; now right). cbn.
  destruct (H a) as [la E]; [now left|]. rewrite E. reflexivity.
Qed.

Lemma owns_linear h a b m : forest h -> owns h a m -> owns h b m -> owns h a b \/ owns h b a.
Proof.
  intros F Ha Hb. induction Ha as [|p n Ha IH Hi]; auto. inversion Hb as [|q ? Hq Hj]; subst.
  - left. eapply owns_child; eauto.
  - apply (fo_links h F) in Hi. apply (fo_links h F) in Hj. assert (q = p) by congruence. subst. auto.
Qed.
Lemma siblings_apart h p c1 c2 m : forest h -> In c1 (h_children h p) -> In c2 (h_children h p) -> owns h c1 m -> owns h c2 m -> c1 = c2.
Proof.
  intros F H1 H2 O1 O2.
  assert (Hx : forall x y, In x (h_children h p) -> In y (h_children h p) -> owns h x y -> x = y).
  { intros x y Hi Hj Hk. apply owns_above in Hk; auto. destruct Hk as [|Hk]; auto. exfalso.
    apply (fo_links h F) in Hi. apply (fo_links h F) in Hj. apply (above_irrefl h x F).
    inversion Hk as [? ? Hy|? p0 ? Hy Hz]; subst.
    - assert (x = p) by congruence. subst. now apply above_parent.
    - assert (p0 = p) by congruence. subst p0. eapply above_trans; [exact Hz|]. now apply above_parent. }
  destruct (owns_linear h c1 c2 m F O1 O2); [|symmetry]; auto.
Qed.
Lemma owns_children h n m : owns h n m <-> m = n \/ exists c, In c (h_children h n) /\ owns h c m.
Proof.
  split.
  - induction 1 as [|p m H IH Hi]; auto. right. destruct IH as [->|(c & Hc & Ho)].
    + exists m. split; auto. constructor.
    + exists c. split; auto. eapply owns_child; eauto.
  - intros [->|(c & Hc & Ho)]; [constructor|]. eapply owns_trans; eauto. eapply owns_child; eauto. constructor.
Qed.

Lemma before_app_l l l' a b : before l a b -> before (l' ++ l) a b.
Proof. intros (x & y & z & ->). exists (l' ++ x), y, z. now rewrite <- app_assoc. Qed.
Lemma before_app_r l l' a b : before l a b -> before (l ++ l') a b.
Proof. intros (x & y & z & ->). exists x, y, (z ++ l'). now rewrite <- ?app_assoc, <- ?app_comm_cons, <- ?app_assoc. Qed.
Lemma before_app l l' a b : In a l -> In b l' -> before (l ++ l') a b.
Proof.
  intros Ha Hb. apply in_split in Ha as (x & y & ->). apply in_split in Hb as (z & w & ->). exists x, (y ++ z), w.
  now rewrite <- ?app_assoc, <- ?app_comm_cons, <- ?app_assoc.
Qed.
Lemma before_flat_in (f : nat -> list nat) l c a b : In c l -> before (f c) a b -> before (flat_map f l) a b.
Proof.
  intros Hc H. apply in_split in Hc as (x & y & ->). rewrite flat_map_app. cbn. apply before_app_l, before_app_r, H.
Qed.
Lemma before_flat (f : nat -> list nat) l c c' a b : before l c c' -> In a (f c) -> In b (f c') -> before (flat_map f l) a b.
Proof.
  intros (x & y & z & ->) Ha Hb. rewrite flat_map_app. cbn. apply before_app_l. apply before_app; auto.
  rewrite flat_map_app. cbn. apply in_or_app. right. apply in_or_app. now left.
Qed.
Lemma before_In l a b : before l a b -> In a l /\ In b l.
Proof. intros (x & y & z & ->). split; apply in_or_app; right; [now left|]. right. apply in_or_app. right. now left. Qed.
Lemma before_neq l a b : NoDup l -> before l a b -> a <> b.
Proof.
  intros Hd (x & y & z & ->) ->. apply NoDup_remove_2 in Hd. apply Hd. apply in_or_app. right. apply in_or_app. right. now left.
Qed.

Lemma NoDup_flat (f : nat -> list nat) l : NoDup l -> (forall c, In c l -> NoDup (f c)) ->
  (forall c c' m, In c l -> In c' l -> In m (f c) -> In m (f c') -> c = c') -> NoDup (flat_map f l).
Proof.
  induction 1 as [|a l Hn Hd IH]; intros Hf Hx; cbn; [constructor|].
  assert (Hl : NoDup (flat_map f l)).
  { apply IH; [intros c Hc; apply Hf; now right|]. intros c c' m Hc Hc'. apply Hx; now right. }
  assert (Ha : NoDup (f a)) by (apply Hf; now left).
  assert (Hap : forall m, In m (f a) -> ~ In m (flat_map f l)).
  { intros m Hm Hy. apply in_flat_map in Hy as (c & Hc & Hm'). apply Hn. rewrite (Hx a c m); auto; [now left|now right]. }
  clear - Hl Ha Hap. induction (f a) as [|b r IH]; auto. cbn. inversion Ha; subst. constructor.
  - intros Hx. apply in_app_or in Hx as [Hx|Hx]; [auto|]. apply (Hap b); [now left|auto].
  - apply IH; auto. intros m Hm. apply Hap. now right.
Qed.

Lemma visits_flat h n (f : nat -> list nat) : forest h -> (forall c, In c (h_children h n) -> visits h c (f c)) ->
  (forall m, In m (flat_map f (h_children h n)) <-> owns h n m /\ m <> n) /\
  NoDup (flat_map f (h_children h n)) /\
  (forall p x y a b, owns h n p -> before (h_children h p) x y -> owns h x a -> owns h y b -> before (flat_map f (h_children h n)) a b).
Proof.
  intros F Hv.
  assert (Hi : forall m, In m (flat_map f (h_children h n)) <-> owns h n m /\ m <> n).
  { intros m. rewrite in_flat_map, owns_children. split.
    - intros (c & Hc & Hm). apply (Hv c Hc) in Hm. split; [right; eauto|]. intros ->.
      apply (above_irrefl h n F). apply (fo_links h F) in Hc. apply owns_above in Hm; auto. destruct Hm as [->|Hm]; [now apply above_parent|].
      eapply above_trans; [|exact Hm]. now apply above_parent.
    - intros [[->|(c & Hc & Ho)] Hne]; [easy|]. exists c. split; auto. now apply (Hv c Hc). }
  split; auto. split.
  - apply NoDup_flat; [apply (fo_once h F)|intros c Hc; apply (Hv c Hc)|].
    intros c c' m Hc Hc' Hm Hm'. apply (siblings_apart h n c c' m F); auto; [now apply (Hv c Hc)|now apply (Hv c' Hc')].
  - intros p x y a b Hp Hb Ha Hb'. apply owns_children in Hp as [->|(c & Hc & Hp)].
    + destruct (before_In _ _ _ Hb) as [Hx Hy]. eapply before_flat; eauto; [now apply (Hv x Hx)|now apply (Hv y Hy)].
    + eapply before_flat_in; eauto. eapply (Hv c Hc); eauto.
Qed.

Lemma preorder_visits h : forest h -> forall fuel n d, n < h_size h -> ancestors h n d -> h_size h <= d + fuel ->
  exists l, preorder fuel h n = Ok l /\ visits h n l /\ (forall a b, owns h n a -> above h a b -> before l a b).
Proof.
  intros F. induction fuel as [|k IH]; intros n d Hn Hd Hf; [apply depth_lt in Hd; auto; lia|]. cbn [preorder].
  assert (Hc : forall c, In c (h_children h n) -> exists lc, preorder k h c = Ok lc /\ visits h c lc /\ (forall a b, owns h c a -> above h a b -> before lc a b)).
  { intros c Hc. apply (fo_links h F) in Hc. apply (IH c (S d)); [exact (proj1 (fo_alloc h F c n Hc))|eapply anc_child; eauto|lia]. }
  rewrite fold_children by (intros c Hx; destruct (Hc c Hx) as (lc & E & _); eauto). cbn [bind].
  eexists. split; [reflexivity|].
  destruct (visits_flat h n (fun c => unres (preorder k h c)) F) as (H1 & H2 & H3).
  { intros c Hx. destruct (Hc c Hx) as (lc & E & Hv & _). now rewrite E. }
  split; [split; [|split]|].
  - intros m. cbn. rewrite H1. destruct (Nat.eq_dec m n) as [->|Hne].
    + split; auto. intros _. constructor.
    + intuition congruence.
  - constructor; auto. rewrite H1. tauto.
  - intros p x y a b Hp Hb Ha Hb'. apply (before_app_l _ [n]). eapply H3; eauto.
  - intros a b Ho Hab. apply owns_children in Ho as [->|(c & Hc' & Ho)].
    + apply (before_app [n]); [now left|]. apply H1. split; [apply owns_above; auto|]. intros ->. now apply (above_irrefl h n F).
    + apply (before_app_l _ [n]). eapply before_flat_in; eauto. destruct (Hc c Hc') as (lc & E & _ & Hbef). rewrite E. now apply Hbef.
Qed.
Lemma postorder_visits h : forest h -> forall fuel n d, n < h_size h -> ancestors h n d -> h_size h <= d + fuel ->
  exists l, postorder fuel h n = Ok l /\ visits h n l /\ (forall a b, owns h n a -> above h a b -> before l b a).
Proof.
  intros F. induction fuel as [|k IH]; intros n d Hn Hd Hf; [apply depth_lt in Hd; auto; lia|]. cbn [postorder].
  assert (Hc : forall c, In c (h_children h n) -> exists lc, postorder k h c = Ok lc /\ visits h c lc /\ (forall a b, owns h c a -> above h a b -> before lc b a)).
  { intros c Hc. apply (fo_links h F) in Hc. apply (IH c (S d)); [exact (proj1 (fo_alloc h F c n Hc))|eapply anc_child; eauto|lia]. }
  rewrite fold_children by (intros c Hx; destruct (Hc c Hx) as (lc & E & _); eauto). cbn [bind].
  eexists. split; [reflexivity|].
  destruct (visits_flat h n (fun c => unres (postorder k h c)) F) as (H1 & H2 & H3).
  { intros c Hx. destruct (Hc c Hx) as (lc & E & Hv & _). now rewrite E. }
  split; [split; [|split]|].
  - intros m. rewrite in_app_iff, H1. cbn. destruct (Nat.eq_dec m n) as [->|Hne].
    + split; auto. intros _. constructor.
    + intuition congruence.
  - apply NoDup_rev in H2. rewrite <- (rev_involutive (flat_map _ _ ++ [n])). rewrite rev_unit. apply NoDup_rev. constructor; auto.
    rewrite <- in_rev, H1. tauto.
  - intros p x y a b Hp Hb Ha Hb'. apply before_app_r. eapply H3; eauto.
  - intros a b Ho Hab. apply owns_children in Ho as [->|(c & Hc' & Ho)].
    + apply before_app; [|now left]. apply H1. split; [apply owns_above; auto|]. intros ->. now apply (above_irrefl h n F).
    + apply before_app_r. eapply before_flat_in; eauto. destruct (Hc c Hc') as (lc & E & _ & Hbef). rewrite E. now apply Hbef.
Qed.

(** ** Siblings *)
Lemma prev_in_spec n l : forall prev, NoDup l -> In n l ->
  prev_in n prev l = match l with m :: _ => if Nat.eqb m n then prev else prev_in n prev l | [] => prev end /\
  (forall m, prev_in n None l = Some m <-> exists l1 l2, l = l1 ++ m :: n :: l2).
Proof.
  intros prev Hd Hi. split.
  - destruct l as [|m r]; auto. cbn. destruct (Nat.eqb m n); auto.
  - assert (G : forall l q m, In n l -> NoDup (q :: l) -> (prev_in n (Some q) l = Some m <-> exists l1 l2, q :: l = l1 ++ m :: n :: l2)).
    { clear. induction l as [|a l IH]; intros q m Hi Hd; [easy|]. cbn [prev_in]. destruct (Nat.eqb_spec a n) as [->|Hne].
      - split.
        + intros H. injection H as <-. now exists [], l.
        + intros (l1 & l2 & E). destruct l1 as [|x l1]; [cbn in E; congruence|]. exfalso. injection E as -> E.
          inversion Hd as [|? ? _ Hd']; subst. destruct l1 as [|y l1]; cbn in E; injection E as <- E.
          * inversion Hd' as [|? ? Hn _]. apply Hn. rewrite E. now left.
          * inversion Hd' as [|? ? Hn _]. apply Hn. rewrite E. apply in_or_app. right. right. now left.
      - destruct Hi as [|Hi]; [congruence|]. rewrite IH; auto; [|now inversion Hd]. split.
        + intros (l1 & l2 & E). exists (q :: l1), l2. cbn. now rewrite E.
        + intros (l1 & l2 & E). destruct l1 as [|x l1]; [cbn in E; congruence|]. cbn in E. injection E as -> E. eauto. }
    intros m. destruct l as [|a l]; [easy|]. cbn [prev_in]. destruct (Nat.eqb_spec a n) as [->|Hne].
    + split; [discriminate|]. intros (l1 & l2 & E). exfalso. inversion Hd as [|? ? Hn _]; subst. destruct l1 as [|x l1]; cbn in E; injection E as -> E;
        apply Hn; rewrite E; [now left|]. apply in_or_app. right. right. now left.
    + destruct Hi as [|Hi]; [congruence|]. apply G; auto.
Qed.

Lemma previous_spec h n m : forest h -> (get_previous h n = Some m <-> exists p l1 l2, h_children h p = l1 ++ m :: n :: l2).
Proof.
  intros F. unfold get_previous. destruct (h_parent h n) as [p|] eqn:E.
  - pose proof (proj1 (fo_links h F n p) E) as Hi. rewrite (proj2 (prev_in_spec n _ None (fo_once h F p) Hi)). split.
    + intros (l1 & l2 & E'). eauto.
    + intros (q & l1 & l2 & E'). assert (Hj : In n (h_children h q)) by (rewrite E'; apply in_or_app; right; right; now left).
      apply (fo_links h F) in Hj. assert (q = p) by congruence. subst. eauto.
  - split; [discriminate|]. intros (q & l1 & l2 & E'). assert (Hj : In n (h_children h q)) by (rewrite E'; apply in_or_app; right; right; now left).
    apply (fo_links h F) in Hj. congruence.
Qed.
Lemma next_spec h n m : forest h -> (get_next h n = Some m <-> exists p l1 l2, h_children h p = l1 ++ n :: m :: l2).
Proof.
  intros F. unfold get_next. destruct (h_parent h n) as [p|] eqn:E.
  - pose proof (proj1 (fo_links h F n p) E) as Hi.
    rewrite (proj2 (prev_in_spec n _ None (NoDup_rev (fo_once h F p)) (proj1 (in_rev _ _) Hi))). split.
    + intros (l1 & l2 & E'). exists p, (rev l2), (rev l1). rewrite <- (rev_involutive (h_children h p)), E', rev_app_distr. cbn.
      now rewrite <- !app_assoc.
    + intros (q & l1 & l2 & E'). assert (Hj : In n (h_children h q)) by (rewrite E'; apply in_or_app; right; now left).
      apply (fo_links h F) in Hj. assert (q = p) by congruence. subst. exists (rev l2), (rev l1). rewrite E', rev_app_distr. cbn.
      now rewrite <- !app_assoc.
  - split; [discriminate|]. intros (q & l1 & l2 & E'). assert (Hj : In n (h_children h q)) by (rewrite E'; apply in_or_app; right; now left).
    apply (fo_links h F) in Hj. congruence.
Qed.
