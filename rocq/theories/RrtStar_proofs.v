From Coq Require Import ZArith Reals Lra.
From Verif Require Import Base RealBase Coords_model Straight_model Straight_spec Straight_proofs Rrt_model Rrt_spec Rrt_proofs.

Set Default Proof Using "Type*".

Lemma nth_error_lt {A} (l : list A) k a : nth_error l k = Some a -> (k < length l)%nat.
Proof. intros H. apply nth_error_Some. congruence. Qed.

Section StarProofs.
Context {V P : Type}.
Variable eqv : V -> V -> bool.
Hypothesis eqv_ok : decides eqv.
Variable final : P -> V.
Variable steer : V -> V -> P.
Variable valid : P -> bool.
Variable issol : V -> bool.
Variable sample : Z -> V.
Variable nearest : Z -> list V -> V -> nat.
Variables maxIteration maxNode : Z.
Variable connect : V -> V -> P.
Variable plength : P -> R.
Variable log : nat -> nat.
Variable knn : Z -> list V -> V -> nat -> list nat.
Variable init : V.

Notation stree := (tree V (@sinfo P R)).
Definition i0 : @sinfo P R := (None, Some 0%R).
Notation vconn := (connected connect valid).
Let body := star_body eqv final steer valid issol sample nearest connect plength 0%R Rplus Rltb log knn.
Let search := star_search eqv final steer valid issol sample nearest maxIteration maxNode connect plength 0%R Rplus Rltb log knn init.
Let best := best_parent (C := R) valid connect plength Rplus Rltb.

(** Nodes from indices. *)
Lemma get_nodes_total (t : stree) : NoDup (states t) -> forall idx, (forall i, In i idx -> (i < length t)%nat) ->
  get_nodes eqv t idx = Ok idx.
Proof.
  intros N. induction idx as [|i r IH]; intros H; [reflexivity|]. cbn [get_nodes].
  destruct (nth_error t i) as [n|] eqn:En.
  2: { apply nth_error_None in En. assert (i < length t)%nat by (apply H; left; reflexivity). lia. }
  unfold vget. rewrite (states_nth eqv eqv_ok i0 _ _ _ En). cbn [bind]. rewrite IH by (intros j Hj; apply H; right; exact Hj).
  cbn [bind]. rewrite (find_index eqv eqv_ok i0 _ _ _ N En). reflexivity.
Qed.

Lemma get_nodes_ok (t : stree) : NoDup (states t) -> forall idx r, get_nodes eqv t idx = Ok r -> r = idx /\
  forall i, In i idx -> (i < length t)%nat.
Proof.
  intros N. induction idx as [|i r IH]; intros o H; [cbn in H; injection H as <-; split; [reflexivity|intros i []]|].
  cbn [get_nodes] in H. unfold vget in H. destruct (nth_error (states t) i) as [v|] eqn:Ev; cbn [bind] in H; [|discriminate].
  destruct (get_nodes eqv t r) as [rest| | |] eqn:Er; cbn [bind] in H; try discriminate.
  destruct (IH _ eq_refl) as (-> & L). destruct (states_nth_inv eqv eqv_ok i0 _ _ _ Ev) as (n & Hn & <-).
  rewrite (find_index eqv eqv_ok i0 _ _ _ N Hn) in H. injection H as <-. split; [reflexivity|].
  intros j [<-|Hj]; [apply nth_error_Some; congruence|exact (L _ Hj)].
Qed.

(** The best parent. *)
Definition cost_via (t : stree) (v : V) (k : nat) : option R :=
  match nth_error t k with
  | Some n => opt_add Rplus (snd (tn_info n)) (plength (connect (tn_state n) v))
  | None => None
  end.
Definition best_ok (t : stree) (v : V) (b : option nat * option R * option P) : Prop :=
  match fst (fst b) with
  | None => snd (fst b) = None /\ snd b = None
  | Some k => exists n, nth_error t k = Some n /\ vconn (tn_state n) v /\ snd (fst b) = cost_via t v k /\
      snd (fst b) <> None /\ snd b = Some (connect (tn_state n) v)
  end.

(** [le_opt a b]: the cost [a] is at most [b]. *)
Definition le_opt (a b : option R) : Prop := opt_ltb Rltb b a = false.

Lemma le_opt_refl a : le_opt a a.
Proof. unfold le_opt. destruct a as [a|]; cbn; [destruct (Rltb_spec a a); [lra|reflexivity]|reflexivity]. Qed.
Lemma le_opt_trans a b c : le_opt a b -> le_opt b c -> le_opt a c.
Proof.
  unfold le_opt. destruct a as [a|], b as [b|], c as [c|]; cbn; try discriminate; auto.
  destruct (Rltb_spec b a), (Rltb_spec c b), (Rltb_spec c a); try discriminate; try reflexivity; lra.
Qed.
Lemma lt_le_opt a b : opt_ltb Rltb a b = true -> le_opt a b.
Proof.
  unfold le_opt. destruct a as [a|], b as [b|]; cbn; try discriminate; auto.
  destruct (Rltb_spec a b), (Rltb_spec b a); try discriminate; try reflexivity; lra.
Qed.

Lemma best_spec (t : stree) v : forall near b b', best t v near b = Ok b' -> best_ok t v b ->
  best_ok t v b' /\ le_opt (snd (fst b')) (snd (fst b)) /\
  (forall k n, In k near -> nth_error t k = Some n -> vconn (tn_state n) v -> le_opt (snd (fst b')) (cost_via t v k)) /\
  (forall k, In k near -> (k < length t)%nat) /\
  (forall k, fst (fst b') = Some k -> fst (fst b) = Some k \/ In k near).
Proof.
  unfold best. induction near as [|k r IH]; intros b b' H Hb.
  - cbn in H. injection H as <-. split; [exact Hb|]. split; [apply le_opt_refl|]. split; [intros k n []|].
    split; [intros k []|]. auto.
  - cbn [best_parent] in H. unfold vget in H. destruct (nth_error t k) as [n|] eqn:En; cbn [bind] in H; [|discriminate].
    set (c := opt_add Rplus (snd (tn_info n)) (plength (connect (tn_state n) v))) in H.
    assert (Hc : cost_via t v k = c) by (unfold cost_via; rewrite En; reflexivity).
    destruct (opt_ltb Rltb c (snd (fst b)) && valid (connect (tn_state n) v)) eqn:Ec.
    + apply andb_prop in Ec. destruct Ec as (E1 & E2).
      assert (B1 : best_ok t v (Some k, c, Some (connect (tn_state n) v))).
      { cbn. exists n. split; [exact En|]. split; [exact E2|]. split; [congruence|]. split; [|reflexivity].
        destruct c; [discriminate|destruct (snd (fst b)); discriminate]. }
      destruct (IH _ _ H B1) as (G1 & G2 & G3 & G4 & G5). cbn [fst snd] in G2, G5. split; [exact G1|].
      split; [exact (le_opt_trans _ _ _ G2 (lt_le_opt _ _ E1))|]. split; [|split].
      * intros k' n' [<-|Hk] Hn' Hv; [|exact (G3 _ _ Hk Hn' Hv)]. rewrite Hc. exact G2.
      * intros k' [<-|Hk]; [apply nth_error_Some; congruence|exact (G4 _ Hk)].
      * intros k' Hk. right. destruct (G5 _ Hk) as [X|X]; [left; congruence|right; exact X].
    + destruct (IH _ _ H Hb) as (G1 & G2 & G3 & G4 & G5). split; [exact G1|]. split; [exact G2|]. split; [|split].
      * intros k' n' [<-|Hk] Hn' Hv; [|exact (G3 _ _ Hk Hn' Hv)]. rewrite Hc.
        assert (n' = n) by congruence. subst n'. unfold connected in Hv. rewrite Hv, andb_true_r in Ec.
        exact (le_opt_trans _ _ _ G2 Ec).
      * intros k' [<-|Hk]; [apply nth_error_Some; congruence|exact (G4 _ Hk)].
      * intros k' Hk. destruct (G5 _ Hk) as [X|X]; auto. right. right. exact X.
Qed.

Lemma best_total (t : stree) v : forall near b, (forall k, In k near -> (k < length t)%nat) ->
  exists b', best t v near b = Ok b'.
Proof.
  unfold best. induction near as [|k r IH]; intros b H; [eexists; reflexivity|]. cbn [best_parent]. unfold vget.
  destruct (nth_error t k) as [n|] eqn:En.
  - cbn [bind]. apply IH. intros j Hj. apply H. right. exact Hj.
  - apply nth_error_None in En. assert (k < length t)%nat by (apply H; left; reflexivity). lia.
Qed.

(** Branches only depend on states and parents. *)
Lemma branch_stable (t t' : stree) k c :
  (forall j n, nth_error t j = Some n ->
     exists n', nth_error t' j = Some n' /\ tn_state n' = tn_state n /\ tn_parent n' = tn_parent n) ->
  branch connect plength t k c -> branch connect plength t' k c.
Proof.
  intros G. induction 1 as [k n Hn Hp|k n p m c Hn Hp Hm Hb IH].
  - destruct (G _ _ Hn) as (n' & Hn' & S1 & S2). apply branch_root with n'; congruence.
  - destruct (G _ _ Hn) as (n' & Hn' & S1 & S2). destruct (G _ _ Hm) as (m' & Hm' & T1 & T2).
    rewrite <- S1, <- T1. apply branch_child with p; congruence.
Qed.

(** What is needed of the neighbours: the motion that was accepted is one of the candidates. *)
Definition covers : Prop := forall it l a, NoDup l -> nth_error l (nearest it l (sample it)) = Some a ->
  valid (steer a (sample it)) = true ->
  vconn a (final (steer a (sample it))) /\ (In (final (steer a (sample it))) l -> a = final (steer a (sample it))) /\
  exists i, In i (knn it l (final (steer a (sample it))) (Nat.max 1 (log (length l)))) /\ nth_error l i = Some a.

Definition no_length : Prop := forall v, plength (connect v v) = 0%R.

Record sinv (t : stree) : Prop := {
  si_wf : twf vconn init t;
  si_cost : forall k n, nth_error t k = Some n -> exists c b, snd (tn_info n) = Some c /\
    route connect valid plength init (tn_state n) c /\ branch connect plength t k b /\ (c <= b)%R
}.

Notation local_costs := (local_costs connect plength).

Lemma sinv_root : sinv (create_root i0 init).
Proof.
  constructor; [apply (root_wf eqv eqv_ok i0 nearest)|].
  intros [|k] n H; [|destruct k; discriminate]. cbn in H. injection H as <-. cbn. exists 0%R, 0%R.
  split; [reflexivity|]. split; [apply route_start|]. split; [|lra].
  apply branch_root with (TNode init None i0); reflexivity.
Qed.

Lemma star_body_covered it t t' s : covers -> no_length -> sinv t -> body it t = Ok (t', s) ->
  sinv t' /\ (length t' <= S (length t))%nat /\
  (forall k, s = Some k -> exists n, nth_error t' k = Some n /\ issol (tn_state n) = true) /\
  ((forall v, proposes final steer valid sample nearest it (states t) v -> ~ In v (states t)) ->
   local_costs t -> local_costs t').
Proof.
  intros Cov NL [W Hc]. unfold body, star_body.
  destruct (get_nearest_node eqv nearest it t (sample it)) as [o| | |] eqn:En; cbn [bind]; try discriminate.
  destruct (get_nearest_spec eqv eqv_ok i0 nearest it t _ _ (twf_once _ _ _ W) En) as (n & Hn & ->).
  unfold vget at 1. rewrite Hn. cbn [bind]. set (p := steer (tn_state n) (sample it)). set (v := final p).
  destruct (valid p) eqn:Ev; cbn [negb].
  2: { intros H. injection H as <- <-. split; [constructor; auto|]. split; [lia|]. split; [discriminate|auto]. }
  destruct (get_nodes eqv t (knn it (states t) v (Nat.max 1 (log (length t))))) as [nodes| | |] eqn:Eg; cbn [bind]; try discriminate.
  destruct (get_nodes_ok t (twf_once _ _ _ W) _ _ Eg) as (-> & Lk).
  destruct (best_parent _ _ _ _ _ _ _ _ _) as [[[ob oc] op]| | |] eqn:Eb; cbn [bind]; try discriminate.
  assert (Hst : nth_error (states t) (nearest it (states t) (sample it)) = Some (tn_state n))
    by (apply (states_nth eqv eqv_ok i0), Hn).
  destruct (Cov it (states t) (tn_state n) (twf_once _ _ _ W) Hst Ev) as (Cv & Cd & i & Ci & Ca).
  fold p in Cv, Cd, Ci. fold v in Cv, Cd, Ci. rewrite (states_length eqv eqv_ok i0) in Ci.
  destruct (states_nth_inv eqv eqv_ok i0 _ _ _ Ca) as (ni & Hni & Si).
  destruct (best_spec t v _ _ _ Eb (conj eq_refl eq_refl)) as (B1 & _ & B3 & _ & _). unfold best_ok in B1. cbn [fst snd] in B1, B3.
  assert (B3' := B3 i ni Ci Hni ltac:(rewrite Si; exact Cv)).
  assert (Via : cost_via t v i = opt_add Rplus (snd (tn_info ni)) (plength (connect (tn_state ni) v)))
    by (unfold cost_via; rewrite Hni; reflexivity).
  destruct (Hc _ _ Hni) as (ca & ba & Ka & Ra & Ba & La). rewrite Via, Ka in B3'. cbn [opt_add] in B3'.
  destruct oc as [c|]; [|discriminate B3'].
  destruct ob as [kb|]; [|destruct B1; discriminate]. cbn [fst snd] in B1 |- *.
  destruct B1 as (nb & Hnb & Vb & Cb & _ & ->). unfold cost_via in Cb. rewrite Hnb in Cb.
  destruct (Hc _ _ Hnb) as (cb & bb & Kb & Rb & Bb & Lb). rewrite Kb in Cb. cbn [opt_add] in Cb.
  assert (Ec : c = (cb + plength (connect (tn_state nb) v))%R) by congruence. clear Cb.
  assert (Lc : (c <= ca + plength (connect (tn_state ni) v))%R).
  { unfold le_opt in B3'. cbn in B3'. destruct (Rltb_spec (ca + plength (connect (tn_state ni) v)) c); [discriminate|lra]. }
  destruct (extend (I := @sinfo P R) eqv (None, Some 0%R) nearest it t v (Some kb)) as [[t1 new]| | |] eqn:Ee; cbn [bind]; try discriminate.
  destruct (extend_spec eqv eqv_ok i0 nearest vconn init it t t1 v kb nb new W Hnb Vb Ee)
    as (k & m & -> & W1 & Hm & Sm & Ll & Cases).
  destruct (set_info (I := @sinfo P R) t1 k (Some (connect (tn_state nb) v), Some c)) as [t2| | |] eqn:Es; cbn [bind]; try discriminate.
  intros H. injection H as <- <-.
  assert (W2 := set_info_wf eqv eqv_ok i0 nearest vconn init _ _ _ _ W1 Es).
  destruct (set_info_spec _ _ _ _ Es) as (m1 & Hm1 & Ll2 & X). assert (m1 = m) by congruence. subst m1. clear Hm1.
  assert (Sub : forall j q, nth_error t j = Some q ->
    exists q', nth_error t2 j = Some q' /\ tn_state q' = tn_state q /\ tn_parent q' = tn_parent q).
  { intros j q Hq. assert (Hq1 : nth_error t1 j = Some q).
    { destruct Cases as [(-> & _)|(_ & -> & _)]; [exact Hq|]. rewrite nth_error_app1; [exact Hq|].
      apply nth_error_Some. congruence. }
    rewrite X. destruct (Nat.eqb_spec j k) as [->|_]; [|eauto]. rewrite Hm in Hq1. injection Hq1 as <-.
    eexists. split; [reflexivity|]. auto. }
  assert (Rc : route connect valid plength init v c) by (rewrite Ec; apply route_step; assumption).
  split; [constructor; [exact W2|]|].
  { intros j q Hq. rewrite X in Hq. destruct (Nat.eqb_spec j k) as [Ejk|Njk].
    - injection Hq as <-. cbn [tn_info snd tn_state]. rewrite Sm. subst j.
      destruct Cases as [(-> & Inv)|(Fresh & -> & ->)].
      + destruct (Hc _ _ Hm) as (ck & bk & Kk & Rk & Bk & Lk').
        exists c, bk. split; [reflexivity|]. split; [exact Rc|]. split; [exact (branch_stable _ _ _ _ Sub Bk)|].
        assert (Ei : i = k) by (apply (nodup_index eqv eqv_ok i0 t i k ni m (twf_once _ _ _ W) Hni Hm); rewrite Si, Sm; apply Cd, Inv).
        subst i. assert (ni = m) by congruence. subst ni. assert (ca = ck) by congruence. subst ck.
        rewrite Sm, NL in Lc. lra.
      + exists c, (bb + plength (connect (tn_state nb) v))%R. split; [reflexivity|]. split; [exact Rc|]. split; [|lra].
        destruct (Sub _ _ Hnb) as (nb' & Hnb' & S1 & _). rewrite <- S1.
        rewrite nth_error_app2, Nat.sub_diag in Hm by lia. cbn in Hm. injection Hm as <-.
        apply (branch_child connect plength t2 (length t) (TNode v (Some kb) (Some (connect (tn_state nb) v), Some c)) kb nb' bb);
          [|reflexivity|exact Hnb'|exact (branch_stable _ _ _ _ Sub Bb)].
        rewrite X, Nat.eqb_refl. reflexivity.
    - assert (Hq0 : nth_error t j = Some q).
      { destruct Cases as [(-> & _)|(_ & -> & ->)]; [exact Hq|].
        destruct (lt_dec j (length t)) as [L|L]; [rewrite nth_error_app1 in Hq by exact L; exact Hq|].
        assert (j < length (t ++ [TNode v (Some kb) i0]))%nat by exact (nth_error_lt _ _ _ Hq).
        rewrite app_length in H. cbn in H. lia. }
      destruct (Hc _ _ Hq0) as (cq & bq & Kq & Rq & Bq & Lq). exists cq, bq. split; [exact Kq|]. split; [exact Rq|].
      split; [exact (branch_stable _ _ _ _ Sub Bq)|exact Lq]. }
  split; [lia|]. split.
  { intros k' Hk. destruct (issol v) eqn:Ei; [|discriminate]. injection Hk as <-. eexists. rewrite X, Nat.eqb_refl.
    split; [reflexivity|]. cbn. congruence. }
  intros NR LC. assert (Fresh : ~ In v (states t)).
  { apply NR. exists (tn_state n). split; [exact Hst|]. split; [exact Ev|reflexivity]. }
  destruct Cases as [(_ & Inv)|(_ & -> & ->)]; [contradiction|].
  assert (Old : forall j q, nth_error t j = Some q -> nth_error t2 j = Some q).
  { intros j q Hq. assert ((j < length t)%nat) by (apply nth_error_Some; congruence). rewrite X.
    destruct (Nat.eqb_spec j (length t)); [lia|]. rewrite nth_error_app1 by lia. exact Hq. }
  intros j q Hq. rewrite X in Hq. destruct (Nat.eqb_spec j (length t)) as [->|Nj].
  - injection Hq as <-. rewrite nth_error_app2, Nat.sub_diag in Hm by lia. cbn in Hm. injection Hm as <-. cbn.
    exists nb, cb. split; [exact (Old _ _ Hnb)|]. split; [exact Kb|]. congruence.
  - assert (L : (j < length t)%nat).
    { assert (j < length (t ++ [TNode v (Some kb) i0]))%nat by exact (nth_error_lt _ _ _ Hq).
      rewrite app_length in H. cbn in H. lia. }
    rewrite nth_error_app1 in Hq by exact L. specialize (LC _ _ Hq). destruct (tn_parent q) as [pq|]; [|exact LC].
    destruct LC as (mq & cq & H1 & H2 & H3). exists mq, cq. split; [exact (Old _ _ H1)|]. auto.
Qed.

Lemma star_success t s n : covers -> no_length -> search = Ok (true, t, s, n) ->
  (exists l g, get_path t s = Ok l /\ path_between vconn init g l /\ issol g = true) /\
  (forall k nd, nth_error t k = Some nd -> exists c b, snd (tn_info nd) = Some c /\
     route connect valid plength init (tn_state nd) c /\ branch connect plength t k b /\ (c <= b)%R) /\
  ((forall c t0 v, visited body (create_root i0 init) c t0 ->
     proposes final steer valid sample nearest c (states t0) v -> ~ In v (states t0)) -> local_costs t).
Proof.
  intros Cov NL H. assert (X := loop_visited _ _ _ _ _ _ _ _ _ _ _ (visited_start _ _) H). cbn beta iota in X.
  destruct X as (c & t0 & k & Hv & Hb & ->).
  assert (S0 : forall c1 t1, visited body (create_root i0 init) c1 t1 -> sinv t1).
  { apply (visited_inv _ maxIteration maxNode _ sinv sinv_root).
    intros c' t1 t2 s' _ Hi Hb'. exact (proj1 (star_body_covered _ _ _ _ Cov NL Hi Hb')). }
  destruct (star_body_covered _ _ _ _ Cov NL (S0 _ _ Hv) Hb) as (S & _ & Hs & Hl).
  split; [|split].
  - destruct (Hs k eq_refl) as (nd & Hn & Hi).
    destruct (get_path_spec eqv eqv_ok i0 nearest vconn init t k nd (si_wf _ S) Hn) as (l & Hl' & Hp). exists l, (tn_state nd). auto.
  - apply S.
  - intros NR. apply Hl; [intros v; exact (NR c t0 v Hv)|].
    clear Hb Hs Hl S. induction Hv as [|c' t1 t2 Hv IH Hb'].
    + intros [|j] q Hq; [|destruct j; discriminate]. cbn in Hq. injection Hq as <-. reflexivity.
    + apply (star_body_covered _ _ _ _ Cov NL (S0 _ _ Hv) Hb'); [intros v; exact (NR c' t1 v Hv)|exact IH].
Qed.

Lemma star_failure t s n : search = Ok (false, t, s, n) -> get_path t s = Ok [].
Proof.
  intros H. assert (X := loop_visited _ _ _ _ _ _ _ _ _ _ _ (visited_start _ _) H). cbn beta iota in X.
  destruct X as (-> & _). reflexivity.
Qed.

(** Without any assumption on the answers of the k-d tree but their range. *)
Let anyedge : V -> V -> Prop := fun _ _ => True.
Lemma star_body_total it t : answers nearest -> answers_all knn -> twf anyedge init t ->
  exists t' s, body it t = Ok (t', s) /\ twf anyedge init t' /\ (length t' <= S (length t))%nat /\
    forall k, s = Some k -> exists n, nth_error t' k = Some n /\ issol (tn_state n) = true.
Proof.
  intros A AA W. unfold body, star_body.
  destruct (get_nearest_total eqv eqv_ok i0 nearest it t (sample it) A (twf_once _ _ _ W) (twf_nonempty eqv eqv_ok i0 nearest _ _ _ W))
    as (n & Hn & ->).
  cbn [bind]. unfold vget at 1. rewrite Hn. cbn [bind]. set (p := steer (tn_state n) (sample it)). set (v := final p).
  destruct (valid p) eqn:Ev; cbn [negb]; [|exists t, None; split; [reflexivity|]; split; [exact W|]; split; [lia|discriminate]].
  rewrite get_nodes_total; [|apply W|].
  2: { intros i Hi. rewrite <- (states_length eqv eqv_ok i0). exact (AA _ _ _ _ _ Hi). }
  cbn [bind]. set (near := knn _ _ _ _).
  destruct (best_total t v near (None, None, None)) as [[[ob oc] op] Eb].
  { intros k Hk. rewrite <- (states_length eqv eqv_ok i0). exact (AA _ _ _ _ _ Hk). }
  unfold best in Eb. rewrite Eb. cbn [bind].
  assert (B := proj1 (best_spec t v _ _ _ Eb (conj eq_refl eq_refl))).
  assert (Ex : exists src nd, nth_error t src = Some nd /\
    extend eqv i0 nearest it t v ob = extend eqv i0 nearest it t v (Some src)).
  { destruct ob as [kb|].
    - cbn in B. destruct B as (nb & Hnb & _). exists kb, nb. auto.
    - destruct (get_nearest_total eqv eqv_ok i0 nearest it t v A (twf_once _ _ _ W) (twf_nonempty eqv eqv_ok i0 nearest _ _ _ W))
        as (m & Hm & Eg).
      exists (nearest it (states t) v), m. split; [exact Hm|]. unfold extend. destruct (find_state eqv t v); [reflexivity|].
      rewrite Eg. reflexivity. }
  destruct Ex as (src & nd & Hnd & Es). cbn [fst]. unfold i0 in Es. rewrite Es. fold i0.
  destruct (extend_total eqv eqv_ok i0 nearest anyedge init it t v src) as (t1 & k & Ee). rewrite Ee. cbn [bind].
  destruct (extend_spec eqv eqv_ok i0 nearest anyedge init it t t1 v src nd _ W Hnd Logic.I Ee)
    as (k' & m & Hk & W1 & Hm & Sm & Ll & _).
  injection Hk as <-. destruct (set_info_total t1 k m (op, snd (Some 0%nat, oc)) Hm) as [t2 Et]. cbn [snd] in Et. cbn [snd]. rewrite Et.
  cbn [bind]. eexists t2, _. split; [reflexivity|].
  split; [exact (set_info_wf eqv eqv_ok i0 nearest anyedge init _ _ _ _ W1 Et)|].
  destruct (set_info_spec _ _ _ _ Et) as (q & Hq & L & X). split; [lia|]. intros j Hj. destruct (issol v) eqn:Ei; [|discriminate]. injection Hj as <-.
  rewrite X, Nat.eqb_refl. eexists. split; [reflexivity|]. cbn. assert (q = m) by congruence. subst q. now rewrite Sm.
Qed.

Lemma star_ends t s n : answers nearest -> answers_all knn -> search = Ok (true, t, s, n) ->
  exists l g, get_path t s = Ok l /\ nth_error l 0 = Some init /\ nth_error l (length l - 1) = Some g /\ issol g = true.
Proof.
  intros A AA H. assert (X := loop_visited _ _ _ _ _ _ _ _ _ _ _ (visited_start _ _) H). cbn beta iota in X.
  destruct X as (c & t0 & k & Hv & Hb & ->).
  assert (S0 : forall c1 t1, visited body (create_root i0 init) c1 t1 -> twf anyedge init t1).
  { apply (visited_inv _ maxIteration maxNode _ (twf anyedge init) (root_wf eqv eqv_ok i0 nearest anyedge init)).
    intros c' t1 t2 s' _ Hi Hb'. destruct (star_body_total c' t1 A AA Hi) as (t3 & s3 & E3 & W3 & _). rewrite Hb' in E3. injection E3 as <- <-. exact W3. }
  destruct (star_body_total c t0 A AA (S0 _ _ Hv)) as (t3 & s3 & E3 & W3 & _ & Hs).
  assert (X : Ok (t, Some k) = Ok (t3, s3)) by (rewrite <- E3; symmetry; exact Hb). injection X as <- <-.
  destruct (Hs k eq_refl) as (nd & Hn & Hi).
  destruct (get_path_spec eqv eqv_ok i0 nearest anyedge init t k nd W3 Hn) as (l & Hl & P1 & P2 & _). exists l, (tn_state nd). auto.
Qed.

Lemma star_terminates : answers nearest -> answers_all knn -> (0 <= maxIteration < max_int)%Z -> (0 <= maxNode)%Z ->
  exists b t s n, search = Ok (b, t, s, n) /\ (0 <= n <= maxIteration + 1)%Z /\
    (Z.of_nat (length t) <= maxNode + 1)%Z /\ NoDup (states t).
Proof.
  intros A AA M1 M2.
  destruct (loop_budget body maxIteration maxNode (create_root i0 init) (twf anyedge init) M1 M2) with
    (fuel := S (S (Z.to_nat maxIteration))) (count := 0%Z) (t := create_root i0 init)
    as (b & t & s & n & H & W & Hn & Hl).
  - intros c t W. destruct (star_body_total c t A AA W) as (t' & s & E & W' & L & _). exists t', s. auto.
  - apply (root_wf eqv eqv_ok i0 nearest).
  - lia.
  - lia.
  - cbn. lia.
  - exists b, t, s, n. split; [exact H|]. split; [exact Hn|]. split; [exact Hl|]. apply W.
Qed.
End StarProofs.

(** Straight connections in the plane. *)
Local Open Scope R_scope.

Lemma point_eqb_ok : decides point_eqb.
Proof.
  intros [a b] [c d]. unfold point_eqb. cbn. destruct (Reqb_spec a c) as [->|N1], (Reqb_spec b d) as [->|N2]; cbn;
    split; intros X; congruence.
Qed.

Lemma clamp_range x : 0 <= clamp x 0 1 <= 1.
Proof. unfold clamp. destruct (Rltb_spec x 0); [lra|]. destruct (Rltb_spec 1 x); lra. Qed.

Lemma steer_at d a q : exists r, 0 <= r <= 1 /\ r_final (steer_r2 d a q) = r_at (r_connect a q) r /\
  steer_r2 d a q = r_connect a (r_final (steer_r2 d a q)) /\ (r = 1 \/ r < 1).
Proof.
  unfold steer_r2. destruct (Rltb_spec 0 (r_length (r_connect a q))) as [L|L].
  - set (r := clamp _ 0 1). assert (Hr : 0 <= r <= 1) by apply clamp_range. exists r. split; [exact Hr|].
    split; [reflexivity|]. split; [|lra].
    assert (B : rbuilt (r_truncate (r_connect a q) r)) by (apply rb_truncate; [constructor|lra]).
    change (RPath a (r_at (r_connect a q) r) (r_length (r_connect a q) * r) =
            RPath a (r_at (r_connect a q) r) (distance a (r_at (r_connect a q) r))).
    f_equal. exact (r_length_built _ B).
  - exists 1. split; [lra|]. rewrite r_at_1. split; [reflexivity|]. split; [reflexivity|lra].
Qed.

Lemma steer_short d a q : 0 <= d -> distance a (r_final (steer_r2 d a q)) <= d.
Proof.
  intros Hd. unfold steer_r2. assert (Lp : r_length (r_connect a q) = distance a q) by reflexivity.
  destruct (Rltb_spec 0 (r_length (r_connect a q))) as [L|L].
  - set (r := clamp _ 0 1). assert (B : rbuilt (r_truncate (r_connect a q) r)) by (apply rb_truncate; [constructor|apply clamp_range]).
    assert (E := r_length_built _ B). cbn [r_truncate r_init r_connect r_final r_length] in E |- *.
    change (r_length (r_connect a q)) with (pnorm (psub q a)) in L. rewrite <- E.
    assert (D : pnorm (psub q a) * (d / pnorm (psub q a)) = d) by (field; lra).
    assert (Hr : r <= d / pnorm (psub q a)).
    { subst r. unfold clamp. change (r_length (r_connect a q)) with (pnorm (psub q a)).
      assert (0 <= d / pnorm (psub q a)) by (apply Rmult_le_pos; [exact Hd|left; apply Rinv_0_lt_compat; lra]).
      destruct (Rltb_spec (d / pnorm (psub q a)) 0); [lra|]. destruct (Rltb_spec 1 (d / pnorm (psub q a))); lra. }
    rewrite <- D at 1. apply Rmult_le_compat_l; lra.
  - cbn [r_connect r_final]. generalize (distance_pos a q). lra.
Qed.

Lemma distance_zero a b : distance a b = 0 -> a = b.
Proof.
  destruct a as [x y], b as [z w]. unfold distance. cbn. intros H. apply sqrt_eq_0 in H.
  2: { generalize (Rle_0_sqr (z - x)) (Rle_0_sqr (w - y)). unfold Rsqr. lra. }
  assert (H1 : Rsqr (z - x) + Rsqr (w - y) = 0) by exact H.
  assert (z - x = 0) by (apply Rplus_sqr_eq_0_l with (w - y); exact H1).
  rewrite Rplus_comm in H1. assert (w - y = 0) by (apply Rplus_sqr_eq_0_l with (z - x); exact H1).
  f_equal; lra.
Qed.

(** A point on the segment from [a] to [q] other than [q] is nearer to [a] than to [b], if [q] is not nearer to [b]. *)
Lemma nearer a b q r : a <> b -> 0 <= r < 1 -> distance q a <= distance q b ->
  distance (r_at (r_connect a q) r) a < distance (r_at (r_connect a q) r) b.
Proof.
  intros Hab Hr Hq. unfold distance in *. destruct a as [ax ay], b as [bx by'], q as [qx qy]. cbn in *.
  apply sqrt_lt_1.
  1, 2: match goal with |- 0 <= ?u * ?u + ?w * ?w => generalize (Rle_0_sqr u) (Rle_0_sqr w); unfold Rsqr; lra end.
  assert (Q : (ax - qx) * (ax - qx) + (ay - qy) * (ay - qy) <= (bx - qx) * (bx - qx) + (by' - qy) * (by' - qy)).
  { apply sqrt_le_0; [| |exact Hq];
      match goal with |- 0 <= ?u * ?u + ?w * ?w => generalize (Rle_0_sqr u) (Rle_0_sqr w); unfold Rsqr; lra end. }
  assert (A : 0 < (bx - ax) * (bx - ax) + (by' - ay) * (by' - ay)).
  { destruct (Req_dec bx ax) as [->|Nx]; [destruct (Req_dec by' ay) as [->|Ny]; [congruence|]|].
    - assert (0 < Rsqr (by' - ay)) by (apply Rlt_0_sqr; lra). unfold Rsqr in H. lra.
    - assert (0 < Rsqr (bx - ax)) by (apply Rlt_0_sqr; lra). generalize (Rle_0_sqr (by' - ay)). unfold Rsqr in *. lra. }
  set (D := (bx - qx) * (bx - qx) + (by' - qy) * (by' - qy) - ((ax - qx) * (ax - qx) + (ay - qy) * (ay - qy))) in *.
  set (F := (bx - ax) * (bx - ax) + (by' - ay) * (by' - ay)) in *.
  assert (I : (bx - ((1 - r) * ax + r * qx)) * (bx - ((1 - r) * ax + r * qx)) +
              (by' - ((1 - r) * ay + r * qy)) * (by' - ((1 - r) * ay + r * qy)) -
              ((ax - ((1 - r) * ax + r * qx)) * (ax - ((1 - r) * ax + r * qx)) +
               (ay - ((1 - r) * ay + r * qy)) * (ay - ((1 - r) * ay + r * qy))) = (1 - r) * F + r * D)
    by (unfold F, D; ring).
  assert (0 < (1 - r) * F) by (apply Rmult_lt_0_compat; lra).
  assert (0 <= r * D) by (apply Rmult_le_pos; [lra|unfold D; lra]). lra.
Qed.

Section Plane.
Variable valid : rpath -> bool.
Variable sample : Z -> point.
Variable nearest : Z -> list point -> point -> nat.
Variable knn : Z -> list point -> point -> nat -> list nat.
Variable d : R.
Hypothesis exact : exact_neighbours nearest knn.

Lemma plane_covers : covers r_final (steer_r2 d) valid sample nearest r_connect log_size knn.
Proof.
  destruct exact as [E1 E2]. intros it l a N Ha Hv. destruct (steer_at d a (sample it)) as (r & Hr & Hf & Hs & Hr1).
  set (v := r_final (steer_r2 d a (sample it))) in *.
  assert (Hl : l <> []) by (intros ->; destruct (nearest it [] (sample it)); discriminate).
  destruct (E1 it l (sample it) Hl) as (a' & Ha' & Hmin). assert (a' = a) by congruence. subst a'.
  assert (Same : nth_error l (nearest it l v) = Some a).
  { destruct (Req_dec r 1) as [->|Nr].
    - rewrite r_at_1 in Hf. cbn in Hf. rewrite Hf. exact Ha.
    - destruct (E1 it l v Hl) as (b & Hb & Hminb). destruct (Reqb_spec (fst a) (fst b)), (Reqb_spec (snd a) (snd b)).
      1: { replace a with b; [exact Hb|]. destruct a, b. cbn in *. congruence. }
      all: assert (Nab : a <> b) by (intros <-; contradiction);
        assert (X := nearer a b (sample it) r Nab ltac:(lra) (Hmin b (nth_error_In _ _ Hb)));
        rewrite <- Hf in X; generalize (Hminb a (nth_error_In _ _ Ha)); lra. }
  split; [unfold connected; rewrite <- Hs; exact Hv|]. split.
  - intros Hin. destruct (E1 it l v Hl) as (b & Hb & Hminb). assert (b = a) by congruence. subst b.
    symmetry. apply distance_zero. generalize (Hminb v Hin) (distance_pos v a). rewrite distance_self. lra.
  - exists (nearest it l v). split; [|exact Same]. apply E2; [exact Hl|]. lia.
Qed.

Lemma plane_no_length : no_length r_connect r_length.
Proof. intros v. cbn. apply distance_self. Qed.
End Plane.
