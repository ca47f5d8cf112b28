From Coq Require Import Permutation.
From Verif Require Import Base Frontier_spec Node_model Node_spec Node_proofs TreeMem_model TreeMem_spec.

Section Proofs.
Context {V : Type} (eqv : V -> V -> bool) (knn1 : list V -> V -> nat) (knn : list V -> V -> nat -> list nat).
Hypothesis He : equivalence V eqv.
Hypothesis Hk : knn_in_range knn1 knn.
Notation coh := (coherent eqv).

Lemma coherent_new : coh t_new.
Proof.
  split; cbn; try easy.
  - apply forest_empty.
  - constructor.
  - intros v o. split; [easy|]. now intros (n & _ & H & _).
Qed.

Lemma alive_lt (t : tmem V) n : coh t -> In n (t_alive t) -> n < h_size (t_heap t).
Proof.
  intros H Hn. destruct (t_root t) as [r|] eqn:E.
  - destruct (co_root _ _ H r E) as (Hr & _ & Ho). apply Ho in Hn. destruct Hn as [|p n _ Hi]; auto.
    apply (fo_links _ (co_forest _ _ H)) in Hi. now apply (fo_alloc _ (co_forest _ _ H)) in Hi.
  - rewrite (co_none _ _ H E) in Hn. destruct Hn.
Qed.
Lemma alive_root (t : tmem V) : coh t -> t_root t <> None -> t_alive t <> [].
Proof.
  intros H Hr. destruct (t_root t) as [r|] eqn:E; [|congruence]. destruct (co_root _ _ H r E) as (_ & _ & Ho). intros N.
  assert (X : In r (t_alive t)) by (apply Ho; constructor). rewrite N in X. destruct X.
Qed.
Lemma root_alive (t : tmem V) n : coh t -> In n (t_alive t) -> exists r, t_root t = Some r /\ owns (t_heap t) r n.
Proof.
  intros H Hn. destruct (t_root t) as [r|] eqn:E; [|rewrite (co_none _ _ H E) in Hn; destruct Hn]. exists r. split; auto. now apply (co_root _ _ H r E).
Qed.

Lemma read_ok (t : tmem V) n v : node_at t n v -> t_read t n = Ok v.
Proof. intros [Hn Hv]. unfold t_read. rewrite (proj2 (existsb_In _ _) Hn). now rewrite Hv. Qed.
Lemma reads_ok (t : tmem V) l : coh t -> incl l (t_alive t) -> exists vs, t_reads t l = Ok vs /\ Forall2 (node_at t) l vs.
Proof.
  intros H. induction l as [|n l IH]; intros Hi; cbn; [eauto|]. destruct IH as (vs & E & F); [intros x Hx; apply Hi; now right|].
  destruct (co_states _ _ H n) as [v Hv]; [apply Hi; now left|]. assert (Hn : node_at t n v) by (split; [apply Hi; now left|exact Hv]).
  rewrite (read_ok t n v Hn). cbn [bind]. rewrite E. cbn [bind]. eauto.
Qed.

Lemma find_map (t : tmem V) v o : coh t -> m_find eqv (t_map t) v = Some o -> exists n w, o = Some n /\ node_at t n w /\ eqv w v = true.
Proof.
  intros H. unfold m_find. destruct (find _ (t_map t)) as [[w x]|] eqn:E; [|discriminate]. cbn. intros G. injection G as <-.
  apply find_some in E. destruct E as [E1 E2]. cbn in E2. apply (co_map _ _ H) in E1. destruct E1 as (n & -> & Hn & Hv). exists n, w. split; auto. now split.
Qed.
Lemma map_none (t : tmem V) v : coh t -> m_find eqv (t_map t) v = None -> forall n w, node_at t n w -> eqv w v = false.
Proof.
  intros H. unfold m_find. destruct (find _ (t_map t)) as [[w x]|] eqn:E; [discriminate|]. intros _ n w [Hn Hw].
  assert (G : In (w, Some n) (t_map t)) by (apply (co_map _ _ H); eauto). exact (find_none _ _ E _ G).
Qed.
Lemma find_node (t : tmem V) n w v : coh t -> node_at t n w -> eqv w v = true -> m_find eqv (t_map t) v = Some (Some n).
Proof.
  intros H Hn Hv. destruct (m_find eqv (t_map t) v) as [o|] eqn:E.
  - destruct (find_map t v o H E) as (m & u & -> & [Hm1 Hm2] & Hu). destruct Hn as [Hn1 Hn2]. do 2 f_equal. apply (co_apart _ _ H m n u w); auto.
    apply (eqk_trans _ _ He u v w); auto. now apply (eqk_sym _ _ He).
  - rewrite (map_none t v H E n w Hn) in Hv. discriminate.
Qed.
Lemma at_ok (t : tmem V) n v : coh t -> node_at t n v -> t_at eqv t v = (t, Some n).
Proof. intros H Hn. unfold t_at. rewrite (find_node t n v v H Hn); auto. apply (eqk_refl _ _ He). Qed.

Lemma vget_lt {A} (l : list A) i : i < length l -> exists x, vget l i = Ok x /\ nth_error l i = Some x.
Proof. intros H. apply nth_error_Some in H. unfold vget. destruct (nth_error l i); [eauto|congruence]. Qed.
Lemma F2_nth {A B} (R : A -> B -> Prop) l l' i x : Forall2 R l l' -> nth_error l' i = Some x -> exists y, nth_error l i = Some y /\ R y x.
Proof. intros H. revert i. induction H as [|a b l l' H1 H2 IH]; intros [|i]; cbn; try discriminate; eauto. intros E. injection E as <-. eauto. Qed.
Lemma F2_in {A B} (R : A -> B -> Prop) l l' x : Forall2 R l l' -> In x l -> exists y, In y l' /\ R x y.
Proof. induction 1 as [|a b l l' H1 H2 IH]; cbn; [easy|]. intros [<-|Hx]; eauto. destruct (IH Hx) as (y & ? & ?); eauto. Qed.
Lemma F2_in' {A B} (R : A -> B -> Prop) l l' y : Forall2 R l l' -> In y l' -> exists x, In x l /\ R x y.
Proof. induction 1 as [|a b l l' H1 H2 IH]; cbn; [easy|]. intros [<-|Hx]; eauto. destruct (IH Hx) as (x & ? & ?); eauto. Qed.
Lemma F2_len {A B} (R : A -> B -> Prop) l l' : Forall2 R l l' -> length l = length l'.
Proof. induction 1; cbn; auto. Qed.

(** The states in the k-d tree, in its order. *)
Lemma points_ok (t : tmem V) : coh t -> exists vs, t_reads t (t_points t) = Ok vs /\ Forall2 (node_at t) (t_alive t) vs.
Proof. intros H. rewrite (co_points _ _ H). apply reads_ok; auto. apply incl_refl. Qed.

Lemma nearest_ok (t : tmem V) q : coh t -> t_root t <> None -> exists vs n v, Forall2 (node_at t) (t_alive t) vs /\
  t_nearest eqv knn1 t q = Ok (t, Some n) /\ node_at t n v /\ nth_error vs (knn1 vs q) = Some v.
Proof.
  intros H Hr. pose proof (alive_root t H Hr) as Hne. destruct (points_ok t H) as (vs & E & F). pose proof (F2_len _ _ _ F) as L.
  assert (Hvs : vs <> []) by (intros ->; destruct (t_alive t); [congruence|discriminate]).
  destruct (vget_lt vs (knn1 vs q)) as (v & E1 & E2); [now apply Hk|]. destruct (F2_nth _ _ _ _ _ F E2) as (n & _ & Hn).
  exists vs, n, v. split; auto. split; auto. unfold t_nearest. rewrite E. destruct (t_points t) eqn:Ep.
  - rewrite (co_points _ _ H) in Ep. congruence.
  - cbn [bind]. rewrite E1. cbn [bind]. now rewrite (at_ok t n v).
Qed.

Lemma pick_ok (vs : list V) is : (forall i, In i is -> i < length vs) -> exists ps, pick vs is = Ok ps /\ Forall2 (fun i p => nth_error vs i = Some p) is ps.
Proof.
  induction is as [|i is IH]; intros H; cbn; [eauto|]. destruct (vget_lt vs i) as (x & E1 & E2); [apply H; now left|].
  destruct IH as (ps & E & F); [intros j Hj; apply H; now right|]. rewrite E1. cbn [bind]. rewrite E. cbn [bind]. eauto.
Qed.
Lemma ats_ok (t : tmem V) ps : coh t -> (forall p, In p ps -> exists n, node_at t n p) ->
  exists ns, t_ats eqv t ps = (t, map Some ns) /\ Forall2 (node_at t) ns ps.
Proof.
  intros H. induction ps as [|p ps IH]; intros Hp; cbn [t_ats]; [exists []; auto|]. destruct (Hp p) as [n Hn]; [now left|].
  rewrite (at_ok t n p H Hn). destruct IH as (ns & E & F); [intros x Hx; apply Hp; now right|]. rewrite E. exists (n :: ns). auto.
Qed.
Lemma nearests_ok (t : tmem V) q nn : coh t -> nn = 0 \/ t_root t <> None -> exists vs ns ps, Forall2 (node_at t) (t_alive t) vs /\
  t_nearests eqv knn t q nn = Ok (t, map Some ns) /\ Forall2 (node_at t) ns ps /\
  (nn <> 0 -> Forall2 (fun i p => nth_error vs i = Some p) (knn vs q nn) ps) /\ (nn = 0 -> ns = []).
Proof.
  intros H Hr. destruct (points_ok t H) as (vs & E & F). destruct nn as [|nn].
  - exists vs, [], []. cbn. repeat split; auto. intros; congruence.
  - destruct Hr as [|Hr]; [discriminate|]. pose proof (alive_root t H Hr) as Hne.
    destruct (pick_ok vs (knn vs q (S nn))) as (ps & E1 & E2); [intros i; apply Hk|].
    destruct (ats_ok t ps H) as (ns & E3 & E4).
    { intros p Hp. destruct (F2_in' _ _ _ _ E2 Hp) as (i & _ & Hi). destruct (F2_nth _ _ _ _ _ F Hi) as (n & _ & Hn). eauto. }
    exists vs, ns, ps. split; auto. split; [|split; auto; split; auto; discriminate]. unfold t_nearests. rewrite E. destruct (t_points t) eqn:Ep.
    + rewrite (co_points _ _ H) in Ep. congruence.
    + cbn [bind]. rewrite E1. cbn [bind]. now rewrite E3.
Qed.

Lemma belongs_ok (t : tmem V) n : coh t -> In n (t_alive t) -> t_belongs t n = Ok true.
Proof.
  intros H Hn. destruct (root_alive t n H Hn) as (r & Er & Ho). unfold t_belongs. rewrite (proj2 (existsb_In _ _) Hn), Er.
  pose proof (co_forest _ _ H) as F. destruct (fo_ends _ F n) as [d Hd].
  destruct (is_descendant_ok (t_heap t) n d r Hd (h_size (t_heap t))) as (b & E & Hb).
  { apply (depth_lt _ n d F); auto. now apply alive_lt. }
  rewrite E. cbn [bind]. apply owns_above in Ho; auto. destruct Ho as [->|Ho]; [now rewrite Nat.eqb_refl, orb_true_r|].
  apply Hb in Ho. now subst b.
Qed.

Lemma destroy_ok (t : tmem V) : coh t -> t_destroy t (t_root t) = Ok [].
Proof.
  intros H. unfold t_destroy. destruct (t_root t) as [r|] eqn:E; [|now rewrite (co_none _ _ H E)].
  destruct (co_root _ _ H r E) as (Hr & Hp & Ho). pose proof (co_forest _ _ H) as F.
  destruct (preorder_visits (t_heap t) F (h_size (t_heap t)) r 0) as (l & El & (Hl & _) & _); auto; [now constructor|].
  rewrite El. cbn [bind]. f_equal. assert (Hin : forall x, In x (t_alive t) -> In x l) by (intros x Hx; now apply Hl, Ho).
  clear -Hin. induction (t_alive t) as [|a al IH]; cbn; auto. rewrite (proj2 (existsb_In a l)) by (apply Hin; now left). cbn. apply IH.
  intros x Hx. apply Hin. now right.
Qed.

Lemma forest_free h : forest h -> forall n, h_size h <= n -> h_parent h n = None /\ h_children h n = [].
Proof.
  intros F n Hx. split.
  - destruct (h_parent h n) as [q|] eqn:E; auto. destruct (fo_alloc h F n q E). lia.
  - destruct (h_children h n) as [|m l] eqn:E; auto. assert (Hi : In m (h_children h n)) by (rewrite E; now left).
    apply (fo_links h F) in Hi. destruct (fo_alloc h F m n Hi). lia.
Qed.

Lemma owns_leaf h n : forest h -> h_children h n = [] -> forall m, owns h n m <-> m = n.
Proof.
  intros F Hc m. rewrite owns_children, Hc. split; [intros [->|(c & [] & _)]; auto|now left].
Qed.

Lemma create_ok (t : tmem V) v : coh t -> t_root t = None -> exists t' n, t_create eqv t v = Ok (t', n) /\ coh t' /\ t_alive t' = [n] /\ t_root t' = Some n /\
  t_state t' n = Some v /\ n = h_size (t_heap t).
Proof.
  intros H Hr. pose proof (co_forest _ _ H) as F. pose proof (co_none _ _ H Hr) as Ha.
  unfold t_create. rewrite (destroy_ok t H). cbn [new_node bind]. set (n := h_size (t_heap t)). set (h' := Heap _ _ _).
  assert (Hm : t_map t = []). { pose proof (co_size _ _ H) as L. rewrite Ha in L. destruct (t_map t); [auto|discriminate]. }
  destruct (forest_new (t_heap t) F (forest_free _ F)) as [F' Ff]. change (fst (new_node (t_heap t))) with h' in *.
  eexists _, _. split; [reflexivity|]. rewrite Hm. unfold m_insert, m_find. cbn [find option_map app].
  split; [|cbn; repeat split; auto; apply upd_same].
  assert (Hc : h_children h' n = []) by apply upd_same. assert (Hp : h_parent h' n = None) by apply upd_same.
  split; cbn [t_heap t_state t_alive t_root t_map t_points]; auto.
  - discriminate.
  - intros r E. injection E as <-. split; [cbn; lia|]. split; auto. intros m. rewrite owns_leaf by auto. cbn. intuition.
  - repeat constructor; easy.
  - intros m [<-|[]]. exists v. apply upd_same.
  - intros a b x y [<-|[]] [<-|[]]; auto.
  - intros w o. split.
    + intros [E|[]]. injection E as <- <-. exists n. split; auto. split; [now left|apply upd_same].
    + intros (m & -> & [<-|[]] & E). rewrite upd_same in E. injection E as <-. now left.
Qed.

Lemma clear_ok (t : tmem V) : coh t -> exists t', t_clear t = Ok t' /\ coh t' /\ t_alive t' = [] /\ t_root t' = None /\ t_map t' = [].
Proof.
  intros H. unfold t_clear. rewrite (destroy_ok t H). cbn [bind]. eexists. split; [reflexivity|]. split; [|auto].
  split; cbn; try easy.
  - apply (co_forest _ _ H).
  - constructor.
  - intros v o. split; [easy|]. now intros (n & _ & [] & _).
Qed.

(** Adding a leaf. *)
Lemma owns_add_leaf h s n r : forest h -> s < h_size h -> n = h_size h -> owns h r s -> r < h_size h ->
  let h' := add_child (fst (new_node h)) s n in
  forest h' /\ (forall m, h_parent h' m = if Nat.eqb m n then Some s else h_parent h m) /\ (forall m, owns h' r m <-> owns h r m \/ m = n).
Proof.
  intros F Hs En Hrs Hr h'. destruct (forest_new h F (forest_free h F)) as [F1 Ff]. assert (Hle : h_size h <= n) by lia.
  assert (P1 : forall m, h_parent (fst (new_node h)) m = h_parent h m).
  { intros m. cbn. rewrite <- En. destruct (Nat.eq_dec m n) as [->|N]; [|now apply upd_other]. rewrite upd_same. symmetry. now apply (forest_free h F). }
  assert (C1 : forall m, h_children (fst (new_node h)) m = h_children h m).
  { intros m. cbn. rewrite <- En. destruct (Nat.eq_dec m n) as [->|N]; [|now apply upd_other]. rewrite upd_same. symmetry. now apply (forest_free h F). }
  assert (Cn : h_children h n = []) by (now apply (forest_free h F)).
  assert (F' : forest h').
  { apply forest_add; auto; [cbn; lia|cbn; lia| |].
    - rewrite P1. now apply (forest_free h F).
    - rewrite owns_leaf; auto; [lia|]. now rewrite C1. }
  split; auto. split.
  { intros m. unfold h'. rewrite add_parent. destruct (Nat.eqb m n); auto. }
  assert (C' : forall q m, In m (h_children h' q) <-> In m (h_children h q) \/ (q = s /\ m = n)).
  { intros q m. unfold h'. cbn [add_child h_children]. destruct (Nat.eq_dec q s) as [->|N].
    - rewrite upd_same, in_app_iff, C1. cbn. intuition.
    - rewrite upd_other, C1 by auto. intuition. }
  assert (Hm : forall m, owns h r m -> owns h' r m).
  { intros m Ho. induction Ho as [|p m Ho IH Hi]; [constructor|]. eapply owns_child; [exact IH|]. apply C'. auto. }
  intros m. split.
  - induction 1 as [|p m Ho IH Hi]; [left; constructor|]. apply C' in Hi. destruct Hi as [Hi|[-> ->]]; auto.
    destruct IH as [IH| ->]; [left; eapply owns_child; eauto|]. rewrite Cn in Hi. destruct Hi.
  - intros [Ho| ->]; auto. apply owns_child with (p := s); auto. apply C'; auto.
Qed.

Lemma extend_node_ok (t : tmem V) target s : coh t -> In s (t_alive t) -> (forall n w, node_at t n w -> eqv w target = false) -> m_find eqv (t_map t) target = None ->
  exists t' n, (do b <- t_belongs t s; if negb b then Throw
     else let (h, n) := new_node (t_heap t) in
        Ok (TMem (add_child h s n) (upd (t_state t) n (Some target)) (t_alive t ++ [n]) (t_root t)
              (m_insert eqv (t_map t) target (Some n)) (t_points t ++ [n]), Some n)) = Ok (t', Some n) /\
  coh t' /\ t_alive t' = t_alive t ++ [n] /\ ~ In n (t_alive t) /\ t_state t' n = Some target /\ h_parent (t_heap t') n = Some s /\ t_root t' = t_root t /\ kept t t'.
Proof.
  intros H Hs Hnew Hf. rewrite (belongs_ok t s H Hs). cbn [bind negb new_node]. set (n := h_size (t_heap t)).
  destruct (root_alive t s H Hs) as (r & Er & Ho). destruct (co_root _ _ H r Er) as (Hr & Hrp & Hal). pose proof (co_forest _ _ H) as F.
  destruct (owns_add_leaf (t_heap t) s n r F (alive_lt t s H Hs) eq_refl Ho Hr) as (F' & P' & O').
  cbn [fst new_node] in *. fold n in F', P', O'. set (h' := add_child _ s n) in *.
  assert (Hfresh : ~ In n (t_alive t)) by (intros X; apply (alive_lt t n H) in X; unfold n in X; lia).
  assert (Hst : forall m, In m (t_alive t) -> upd (t_state t) n (Some target) m = t_state t m) by (intros m Hm; apply upd_other; congruence).
  eexists _, _. split; [reflexivity|]. unfold m_insert. rewrite Hf.
  split; [|cbn [t_alive t_state t_heap t_root]; split; [reflexivity|]; split; [exact Hfresh|]; split; [apply upd_same|]; split; [rewrite P'; now rewrite Nat.eqb_refl|]; split; [reflexivity|]; intros m v [Hm Hv]; cbn [t_alive t_state t_heap t_root]].
  - split; cbn [t_heap t_state t_alive t_root t_map t_points]; auto.
    + intros E. congruence.
    + intros r' E. assert (r' = r) by congruence. subst r'. split; [cbn; lia|]. split.
      * rewrite P'. destruct (Nat.eqb_spec r n) as [->|]; auto. unfold n in Hr. lia.
      * intros m. rewrite O', in_app_iff, Hal. cbn. intuition.
    + apply (Permutation_NoDup (Permutation_cons_append (t_alive t) n)). constructor; auto. apply (co_once _ _ H).
    + intros m Hm. apply in_app_or in Hm. destruct Hm as [Hm|[<-|[]]]; [|exists target; apply upd_same]. rewrite Hst by auto. now apply (co_states _ _ H).
    + intros a b x y Ha Hb. apply in_app_or in Ha, Hb. destruct Ha as [Ha|[<-|[]]], Hb as [Hb|[<-|[]]].
      * rewrite !Hst by auto. now apply (co_apart _ _ H).
      * rewrite upd_same, Hst by auto. intros Ex Ey. injection Ey as <-. intros G. rewrite (Hnew a x (conj Ha Ex)) in G. discriminate.
      * rewrite upd_same, Hst by auto. intros Ex Ey. injection Ex as <-. intros G. apply (eqk_sym _ _ He) in G. rewrite (Hnew b y (conj Hb Ey)) in G. discriminate.
      * auto.
    + intros v o. rewrite in_app_iff, (co_map _ _ H). split.
      * intros [(m & -> & Hm & Hv)|[E|[]]].
        -- exists m. split; auto. rewrite in_app_iff, Hst by auto. auto.
        -- injection E as <- <-. exists n. split; auto. rewrite in_app_iff, upd_same. cbn. auto.
      * intros (m & -> & Hm & Hv). apply in_app_or in Hm. destruct Hm as [Hm|[<-|[]]].
        -- left. exists m. rewrite Hst in Hv by auto. auto.
        -- rewrite upd_same in Hv. injection Hv as <-. right. now left.
    + rewrite !app_length, (co_size _ _ H). reflexivity.
    + now rewrite (co_points _ _ H).
  - split; [split; cbn [t_alive t_state]; [apply in_or_app; auto|now rewrite Hst]|]. rewrite P'. destruct (Nat.eqb_spec m n) as [->|]; auto. contradiction.
Qed.

Lemma extend_ok (t : tmem V) target source : coh t -> tallowed t (OExtend target source) -> exists t' n, t_extend eqv knn1 t target source = Ok (t', Some n) /\ coh t' /\
  ((exists w, node_at t n w /\ eqv w target = true /\ t' = t) \/
   ((forall m w, node_at t m w -> eqv w target = false) /\ t_alive t' = t_alive t ++ [n] /\ ~ In n (t_alive t) /\ t_state t' n = Some target /\ t_root t' = t_root t /\ kept t t' /\
    exists s, In s (t_alive t) /\ h_parent (t_heap t') n = Some s /\
      match source with Some s' => s = s' | None => t_nearest eqv knn1 t target = Ok (t, Some s) end)).
Proof.
  intros H Ha. unfold t_extend. destruct (m_find eqv (t_map t) target) as [o|] eqn:E.
  - destruct (find_map t target o H E) as (n & w & -> & Hn & Hw). exists t, n. split; auto. split; auto. left. eauto.
  - pose proof (map_none t target H E) as Hnew.
    assert (G : exists s, In s (t_alive t) /\ (match source with Some s' => Ok (t, Some s') | None => t_nearest eqv knn1 t target end) = Ok (t, Some s)).
    { destruct source as [s|]; cbn in Ha; [eauto|]. destruct (nearest_ok t target H Ha) as (vs & n & v & _ & En & [Hn _] & _). eauto. }
    destruct G as (s & Hs & Es). rewrite Es. cbn [bind]. destruct (extend_node_ok t target s H Hs Hnew E) as (t' & n & E' & Hc & A1 & A2 & A3 & A4 & A5 & A6).
    exists t', n. split; auto. split; auto. right. do 6 (split; [assumption|]). exists s. split; auto. split; auto. destruct source; congruence.
Qed.

(** A set closed under parents in both directions contains all or nothing of what a node owns. *)
Lemma owns_closed h (T : nat -> Prop) : forest h -> (forall m q, h_parent h m = Some q -> (T m <-> T q)) -> forall x m, owns h x m -> (T x <-> T m).
Proof. intros F H x m. induction 1 as [|p m Ho IH Hi]; [reflexivity|]. rewrite IH. symmetry. apply H. now apply (fo_links h F). Qed.

Lemma reparent_ok (t : tmem V) c p : coh t -> tallowed t (OReparent c p) -> exists t', t_reparent t c p = Ok t' /\ coh t' /\ t_alive t' = t_alive t /\ t_state t' = t_state t /\
  t_map t' = t_map t /\ reparent_effect (t_heap t) c p (t_root t) (t_heap t') (t_root t').
Proof.
  intros H (Hc & Hp & Hne). unfold t_reparent. rewrite (proj2 (existsb_In _ _) Hc), (proj2 (existsb_In _ _) Hp). cbn [andb].
  destruct (root_alive t c H Hc) as (r & Er & Oc). destruct (co_root _ _ H r Er) as (Hr & Hrp & Hal). pose proof (co_forest _ _ H) as F.
  assert (Hup : forall m q, h_parent (t_heap t) m = Some q -> (owns (t_heap t) r m <-> owns (t_heap t) r q)).
  { intros m q Hq. split; [|intros Ho; eapply owns_child; eauto; now apply (fo_links _ F)]. intros Ho. inversion Ho as [|q' ? Ho' Hi]; subst; [congruence|].
    apply (fo_links _ F) in Hi. assert (q' = q) by congruence. now subst. }
  assert (Hroots : forall m, h_parent (t_heap t) m = None -> owns (t_heap t) r m -> m = r).
  { intros m Hm Ho. inversion Ho as [|q ? Ho' Hi]; subst; auto. apply (fo_links _ F) in Hi. congruence. }
  destruct (reparent_spec (t_heap t) c p (t_root t) (h_size (t_heap t)) F (alive_lt t c H Hc) (alive_lt t p H Hp) Hne (le_n _)) as (h' & r' & E & F' & R).
  { intros Hn. rewrite Er. f_equal. symmetry. auto. }
  rewrite E. cbn [bind]. eexists. split; [reflexivity|]. split; [|cbn; auto]. destruct R as (R1 & R2 & R3 & R4 & R5 & R6 & R7).
  assert (Op : owns (t_heap t) r p) by (now apply Hal).
  assert (Hclosed : forall m q, h_parent h' m = Some q -> (owns (t_heap t) r m <-> owns (t_heap t) r q)).
  { intros m q Hq. destruct (Nat.eq_dec m c) as [->|Nc]; [rewrite R2 in Hq; injection Hq as <-; tauto|].
    destruct (fo_ends _ F p) as [d Hd]. destruct (is_descendant_ok (t_heap t) p d c Hd (S d)) as (b & _ & Hb); [lia|].
    destruct (Nat.eq_dec m p) as [->|Np], b; try (rewrite R4 in Hq; auto; fail).
    - rewrite R3 in Hq by (now apply Hb). apply Hup in Hq. tauto.
    - rewrite R4 in Hq; auto. right. intros X. apply Hb in X. discriminate. }
  assert (Hroot' : exists x, r' = Some x /\ owns (t_heap t) r x /\ h_parent h' x = None /\ forall m, h_parent h' m = None -> owns (t_heap t) r m -> m = x).
  { destruct (Nat.eq_dec c r) as [->|Nr].
    - assert (A : above (t_heap t) r p) by (apply owns_above in Op; auto; destruct Op; [congruence|auto]).
      exists p. rewrite R6, R3, Hrp by auto. split; [reflexivity|]. split; [exact Op|]. split; [reflexivity|].
      intros m Hm Ho. destruct (Nat.eq_dec m p) as [|Np]; auto. destruct (Nat.eq_dec m r) as [->|Nr]; [congruence|].
      rewrite (R4 m Nr (or_introl Np)) in Hm. destruct Nr. auto.
    - assert (Hcp : h_parent (t_heap t) c <> None) by (intros X; apply Nr; auto).
      assert (Nrp : r <> p \/ ~ above (t_heap t) c p).
      { destruct (Nat.eq_dec r p) as [->|]; auto. right. intros X. inversion X; congruence. }
      exists r. rewrite R5, R4 by auto. repeat split; auto; [constructor|]. intros m Hm Ho. destruct (Nat.eq_dec m c) as [->|Nc]; [congruence|].
      destruct (fo_ends _ F p) as [d Hd]. destruct (is_descendant_ok (t_heap t) p d c Hd (S d)) as (b & _ & Hb); [lia|].
      destruct (Nat.eq_dec m p) as [->|Np], b.
      + rewrite R3 in Hm by (now apply Hb). contradiction.
      + rewrite R4 in Hm; auto. right. intros X. apply Hb in X. discriminate.
      + rewrite R4 in Hm by auto. auto.
      + rewrite R4 in Hm by auto. auto. }
  destruct Hroot' as (x & -> & Ox & Px & Ux).
  split; cbn [t_heap t_state t_alive t_root t_map t_points]; auto; try apply H.
  - discriminate.
  - intros y E'. injection E' as <-. split; [rewrite R1; apply (alive_lt t x H); now apply Hal|]. split; auto. intros n. rewrite Hal. split.
    + intros Ho. destruct (one_root h' n F') as (z & Pz & Oz & _). assert (z = x); [|now subst]. apply Ux; auto.
      apply (owns_closed h' (owns (t_heap t) r) F' Hclosed z n Oz). exact Ho.
    + intros Ho. apply (owns_closed h' (owns (t_heap t) r) F' Hclosed x n Ho). exact Ox.
Qed.

Lemma step_ok (t : tmem V) x : coh t -> tallowed t x -> exists t' r, tstep eqv knn1 knn t x = Ok (t', r) /\ coh t'.
Proof.
  intros H Ha. destruct x as [v|v s|c p|v|v nn|n| |]; cbn [tstep].
  - destruct (create_ok t v H Ha) as (t' & n & E & Hc & _). rewrite E. cbn [bind]. eauto.
  - destruct (extend_ok t v s H Ha) as (t' & n & E & Hc & _). rewrite E. cbn [bind]. eauto.
  - destruct (reparent_ok t c p H Ha) as (t' & E & Hc & _). rewrite E. cbn [bind]. eauto.
  - destruct (nearest_ok t v H Ha) as (_ & n & _ & _ & E & _). rewrite E. cbn [bind]. eauto.
  - destruct (nearests_ok t v nn H Ha) as (_ & ns & _ & _ & E & _). rewrite E. cbn [bind]. eauto.
  - rewrite (belongs_ok t n H Ha). cbn [bind]. eauto.
  - eauto.
  - destruct (clear_ok t H) as (t' & E & Hc & _). rewrite E. cbn [bind]. eauto.
Qed.
Lemma reached_coherent (t : tmem V) : treached eqv knn1 knn t -> coh t.
Proof.
  induction 1 as [|t x t' r Ht IH Ha E]; [apply coherent_new|]. destruct (step_ok t x IH Ha) as (t2 & r2 & E2 & Hc). congruence.
Qed.
End Proofs.

From Coq Require Import Reals.
Section Nearest.
Context {V : Type} (eqv : V -> V -> bool) (knn1 : list V -> V -> nat) (knn : list V -> V -> nat -> list nat) (dist : V -> V -> R).
Hypothesis He : equivalence V eqv.
Hypothesis Hk : knn_in_range knn1 knn.
Hypothesis Hx : knn_exact knn1 knn dist.

Lemma nearest_exact (t : tmem V) q : coherent eqv t -> t_root t <> None -> exists n v, t_nearest eqv knn1 t q = Ok (t, Some n) /\ node_at t n v /\
  forall m w, node_at t m w -> (dist v q <= dist w q)%R.
Proof.
  intros H Hr. destruct (nearest_ok eqv knn1 knn He Hk t q H Hr) as (vs & n & v & F & E & Hn & Hv). exists n, v. split; auto. split; auto.
  intros m w Hm. destruct (F2_in _ _ _ m F) as (u & Hu & Hum); [apply Hm|]. apply (proj1 Hx vs q v Hv). destruct Hm as [_ E1], Hum as [_ E2]. congruence.
Qed.

Lemma nearests_exact (t : tmem V) q nn : coherent eqv t -> nn = 0 \/ t_root t <> None -> exists ns, t_nearests eqv knn t q nn = Ok (t, map Some ns) /\
  NoDup ns /\ length ns = Nat.min nn (length (t_alive t)) /\
  (forall n, In n ns -> In n (t_alive t)) /\
  forall n m v w, In n ns -> node_at t n v -> node_at t m w -> ~ In m ns -> (dist v q <= dist w q)%R.
Proof.
  intros H Hr. destruct (nearests_ok eqv knn1 knn He Hk t q nn H Hr) as (vs & ns & ps & F & E & Fn & Fi & Hz). exists ns. split; auto.
  destruct nn as [|nn].
  { rewrite (Hz eq_refl). cbn. split; [constructor|]. split; auto. split; easy. }
  specialize (Fi ltac:(discriminate)). destruct (proj2 Hx vs q (S nn)) as (D & L & N). clear Hz.
  (* the nodes at the indices *)
  assert (FF : Forall2 (fun i n => nth_error (t_alive t) i = Some n) (knn vs q (S nn)) ns).
  { clear D L N E. revert ns Fn. induction Fi as [|i p is ps Hi Fi IH]; intros ns Fn; inversion Fn as [|n ? ns' ? Hn Fn']; subst; constructor; auto.
    destruct (F2_nth _ _ _ _ _ F Hi) as (n' & En & [A1 A2]). rewrite En. f_equal. destruct Hn as [B1 B2].
    apply (co_apart _ _ H n' n p p); auto. apply (eqk_refl _ _ He). }
  assert (Hin : forall n, In n ns -> exists i, In i (knn vs q (S nn)) /\ nth_error (t_alive t) i = Some n) by (intros n Hn; exact (F2_in' _ _ _ _ FF Hn)).
  assert (Hst : forall i n v, nth_error (t_alive t) i = Some n -> t_state t n = Some v -> nth_error vs i = Some v).
  { clear -F. induction F as [|a b l l' [_ Hab] F IH]; intros [|i] n v; cbn; try discriminate; eauto. intros E1 E2. injection E1 as <-. congruence. }
  split; [|split; [|split]].
  - clear -FF D H. induction FF as [|i n is ns Hi FF IH]; constructor; inversion D; subst; auto. intros Hn.
    destruct (F2_in' _ _ _ _ FF Hn) as (j & Hj & Ej). assert (i = j); [|congruence].
    apply (proj1 (NoDup_nth_error (t_alive t)) (co_once _ _ H)); [|congruence]. apply nth_error_Some. congruence.
  - rewrite <- (F2_len _ _ _ FF), L. now rewrite (F2_len _ _ _ F).
  - intros n Hn. destruct (Hin n Hn) as (i & _ & Ei). now apply nth_error_In in Ei.
  - intros n m v w Hn Hv Hw Hm. destruct (Hin n Hn) as (i & Hi & Ei). destruct Hv as [_ Hv], Hw as [Ha Hw]. apply In_nth_error in Ha. destruct Ha as [j Ej].
    apply (N i j); eauto. intros Hj. apply Hm. destruct (F2_in _ _ _ _ FF Hj) as (m' & Hm' & E'). congruence.
Qed.
End Nearest.

(** A concrete exact search on natural numbers, for the examples: the indices sorted by distance. *)
Definition gap (x y : nat) : nat := (x - y) + (y - x).
Fixpoint sort_in (key : nat -> nat) (i : nat) (l : list nat) : list nat :=
  match l with
  | [] => [i]
  | j :: r => if key i <=? key j then i :: l else j :: sort_in key i r
  end.
Definition sorted_by (key : nat -> nat) (l : list nat) : list nat := fold_right (sort_in key) [] l.
Definition key_of (vs : list nat) (q i : nat) : nat := match nth_error vs i with Some v => gap v q | None => 0 end.
Definition nat_knn (vs : list nat) (q nn : nat) : list nat := firstn nn (sorted_by (key_of vs q) (seq 0 (length vs))).
Definition nat_knn1 (vs : list nat) (q : nat) : nat := hd 0 (sorted_by (key_of vs q) (seq 0 (length vs))).

Lemma sort_in_perm key i l : Permutation (sort_in key i l) (i :: l).
Proof. induction l as [|j l IH]; cbn; auto. destruct (key i <=? key j); auto. etransitivity; [apply perm_skip, IH|apply perm_swap]. Qed.
Lemma sorted_perm key l : Permutation (sorted_by key l) l.
Proof. induction l as [|i l IH]; cbn; auto. etransitivity; [apply sort_in_perm|now apply perm_skip]. Qed.
Lemma sort_in_sorted key i l : ForallOrdPairs (fun a b => key a <= key b) l -> ForallOrdPairs (fun a b => key a <= key b) (sort_in key i l).
Proof.
  induction 1 as [|j l Hj Hl IH]; cbn; [repeat constructor|]. destruct (Nat.leb_spec (key i) (key j)).
  - constructor; [|now constructor]. constructor; auto. eapply Forall_impl; [|exact Hj]. cbn. intros; lia.
  - constructor; auto. apply (Permutation_Forall (Permutation_sym (sort_in_perm key i l))). constructor; auto. lia.
Qed.
Lemma sorted_sorted key l : ForallOrdPairs (fun a b => key a <= key b) (sorted_by key l).
Proof. induction l as [|i l IH]; cbn; [constructor|]. now apply sort_in_sorted. Qed.
Lemma sorted_cut (key : nat -> nat) k l : ForallOrdPairs (fun a b => key a <= key b) l -> forall i j, In i (firstn k l) -> In j l -> ~ In j (firstn k l) -> key i <= key j.
Proof.
  intros H. revert k. induction H as [|a l Ha Hl IH]; intros [|k] i j; cbn; try easy.
  intros [<-|Hi] [->|Hj] Hn; try tauto.
  - rewrite Forall_forall in Ha. auto.
  - apply (IH k); auto.
Qed.
Lemma nat_knn_range : knn_in_range nat_knn1 nat_knn.
Proof.
  assert (G : forall vs q i, In i (sorted_by (key_of vs q) (seq 0 (length vs))) -> i < length vs).
  { intros vs q i Hi. apply (Permutation_in _ (sorted_perm _ _)) in Hi. apply in_seq in Hi. lia. }
  split.
  - intros vs q Hv. unfold nat_knn1. pose proof (G vs q) as Gv. pose proof (Permutation_length (sorted_perm (key_of vs q) (seq 0 (length vs)))) as L.
    destruct (sorted_by _ _) as [|i l]; [rewrite seq_length in L; destruct vs; [congruence|discriminate]|]. apply Gv. now left.
  - intros vs q nn i Hi. apply (G vs q). rewrite <- (firstn_skipn nn). apply in_or_app. now left.
Qed.
Lemma nat_knn_exact : knn_exact nat_knn1 nat_knn (fun x y => INR (gap x y)).
Proof.
  assert (Ki : forall vs q i u, nth_error vs i = Some u -> key_of vs q i = gap u q) by (intros vs q i u E; unfold key_of; now rewrite E).
  assert (Si : forall vs q i u, nth_error vs i = Some u -> In i (sorted_by (key_of vs q) (seq 0 (length vs)))).
  { intros vs q i u E. apply (Permutation_in _ (Permutation_sym (sorted_perm _ _))). apply in_seq. split; [lia|]. cbn. apply nth_error_Some. congruence. }
  split.
  - intros vs q w Hw u Hu. apply le_INR. apply In_nth_error in Hu. destruct Hu as [j Hj]. rewrite <- (Ki vs q _ _ Hw), <- (Ki vs q _ _ Hj).
    pose proof (Si vs q j u Hj) as Sj. unfold nat_knn1 in *. pose proof (sorted_sorted (key_of vs q) (seq 0 (length vs))) as So.
    destruct (sorted_by _ _) as [|a l]; [destruct Sj|]. cbn [hd]. inversion So as [|? ? Ha _]; subst. rewrite Forall_forall in Ha. destruct Sj as [->|Sj]; auto.
  - intros vs q nn. unfold nat_knn. pose proof (sorted_perm (key_of vs q) (seq 0 (length vs))) as P. split; [|split].
    + assert (D : NoDup (sorted_by (key_of vs q) (seq 0 (length vs)))) by (apply (Permutation_NoDup (Permutation_sym P)), seq_NoDup).
      rewrite <- (firstn_skipn nn) in D. clear P. induction (firstn nn _) as [|a l IH]; constructor; inversion D as [|? ? D1 D2]; subst; auto.
      intros X. apply D1. apply in_or_app. now left.
    + rewrite firstn_length, (Permutation_length P), seq_length. reflexivity.
    + intros i j u w Hi Hj Eu Ew. apply le_INR. rewrite <- (Ki vs q _ _ Eu), <- (Ki vs q _ _ Ew).
      apply (sorted_cut (key_of vs q) nn (sorted_by (key_of vs q) (seq 0 (length vs)))); eauto. apply sorted_sorted.
Qed.

(** Runs of legitimate calls, for the examples. *)
Definition has (n : nat) (l : list nat) : bool := existsb (Nat.eqb n) l.
Definition rooted {V} (t : tmem V) : bool := match t_root t with Some _ => true | None => false end.
Definition tallowedb {V} (t : tmem V) (x : top V) : bool :=
  match x with
  | OCreate _ => negb (rooted t)
  | OExtend _ (Some s) => has s (t_alive t)
  | OExtend _ None => rooted t
  | OReparent c p => has c (t_alive t) && has p (t_alive t) && negb (Nat.eqb c p)
  | ONearest _ => rooted t
  | ONearests _ nn => Nat.eqb nn 0 || rooted t
  | OBelongs n => has n (t_alive t)
  | OSize | OClear => true
  end.
Lemma tallowedb_ok {V} (t : tmem V) x : tallowedb t x = true -> tallowed t x.
Proof.
  assert (R : rooted t = true -> t_root t <> None) by (unfold rooted; destruct (t_root t); discriminate).
  destruct x as [v|v [s|]|c p|v|v nn|n| |]; cbn; auto; unfold has; try apply existsb_In.
  - unfold rooted. destruct (t_root t); [discriminate|auto].
  - rewrite !andb_true_iff, !existsb_In, negb_true_iff, Nat.eqb_neq. tauto.
  - rewrite orb_true_iff, Nat.eqb_eq. tauto.
Qed.
Fixpoint trun (t : tmem nat) (l : list (top nat)) : res (tmem nat) :=
  match l with
  | [] => Ok t
  | x :: r => if tallowedb t x then do (t', v) <- tstep Nat.eqb nat_knn1 nat_knn t x; trun t' r else Throw
  end.
Lemma trun_reached l : forall t t', treached Nat.eqb nat_knn1 nat_knn t -> trun t l = Ok t' -> treached Nat.eqb nat_knn1 nat_knn t'.
Proof.
  induction l as [|x l IH]; intros t t' Ht; cbn [trun]; [congruence|]. destruct (tallowedb t x) eqn:Ea; [|discriminate].
  destruct (tstep Nat.eqb nat_knn1 nat_knn t x) as [[t1 r]| | |] eqn:E; cbn [bind]; try discriminate. apply IH.
  eapply treached_step; [exact Ht|apply tallowedb_ok; exact Ea|exact E].
Qed.
