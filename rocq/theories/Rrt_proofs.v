From Coq Require Import ZArith Reals Lra.
From Verif Require Import Base RealBase Coords_model Straight_model Straight_spec Straight_proofs Rrt_model Rrt_spec.

Set Default Proof Using "Type*".

Lemma list_ext {A} (l l' : list A) : (forall j, nth_error l j = nth_error l' j) -> l = l'.
Proof.
  revert l'. induction l as [|a l IH]; intros [|b l'] H; [reflexivity|discriminate (H 0%nat)|discriminate (H 0%nat)|].
  generalize (H 0%nat). cbn. intros X. injection X as <-. f_equal. apply IH. intros j. exact (H (S j)).
Qed.

Lemma set_nth {A} (l : list A) k a : (k < length l)%nat -> forall j,
  nth_error (firstn k l ++ a :: skipn (S k) l) j = if (j =? k)%nat then Some a else nth_error l j.
Proof.
  intros L j. assert (Lf : length (firstn k l) = k) by (rewrite firstn_length; lia).
  destruct (Nat.eqb_spec j k) as [->|Hj].
  - rewrite nth_error_app2, Lf, Nat.sub_diag by lia. reflexivity.
  - destruct (lt_dec j k) as [Lj|Lj].
    + rewrite nth_error_app1 by lia. rewrite <- (firstn_skipn k l) at 2. rewrite nth_error_app1 by lia. reflexivity.
    + rewrite nth_error_app2 by lia. rewrite Lf. replace (j - k)%nat with (S (j - S k))%nat by lia. cbn [nth_error].
      rewrite <- (firstn_skipn (S k) l) at 2. rewrite nth_error_app2; rewrite firstn_length; [|lia].
      f_equal. lia.
Qed.

Lemma set_info_spec {V I} (t t' : tree V I) k i : set_info t k i = Ok t' ->
  exists n, nth_error t k = Some n /\ length t' = length t /\
    forall j, nth_error t' j = if (j =? k)%nat then Some (TNode (tn_state n) (tn_parent n) i) else nth_error t j.
Proof.
  unfold set_info, vget, vset. destruct (nth_error t k) as [n|] eqn:En; cbn [bind]; [|discriminate].
  destruct (k <? length t) eqn:L; [|discriminate]. intros H.
  assert (H' : t' = firstn k t ++ TNode (tn_state n) (tn_parent n) i :: skipn (S k) t) by congruence. subst t'.
  exists n. split; [reflexivity|]. assert (Lk : (k < length t)%nat) by lia. split; [|intros j; apply set_nth, Lk].
  rewrite app_length. cbn [length]. rewrite firstn_length, skipn_length. lia.
Qed.

Lemma set_info_total {V I} (t : tree V I) k n i : nth_error t k = Some n -> exists t', set_info t k i = Ok t'.
Proof.
  intros H. unfold set_info, vget, vset. rewrite H. cbn [bind].
  assert ((k < length t)%nat) by (apply nth_error_Some; congruence).
  destruct (Nat.ltb_spec k (length t)); [eauto|lia].
Qed.

Lemma set_info_states {V I} (t t' : tree V I) k i : set_info t k i = Ok t' -> states t' = states t.
Proof.
  intros H. destruct (set_info_spec _ _ _ _ H) as (n & Hn & L & X).
  apply list_ext. intros j. unfold states. rewrite !nth_error_map, X.
  destruct (Nat.eqb_spec j k) as [->|_]; [rewrite Hn|]; reflexivity.
Qed.

Section TreeProofs.
Context {V I : Type}.
Variable eqv : V -> V -> bool.
Hypothesis eqv_ok : decides eqv.
Variable info0 : I.
Lemma states_nth (t : tree V I) k n : nth_error t k = Some n -> nth_error (states t) k = Some (tn_state n).
Proof. intros H. unfold states. rewrite nth_error_map, H. reflexivity. Qed.

Lemma states_nth_inv (t : tree V I) k v : nth_error (states t) k = Some v -> exists n, nth_error t k = Some n /\ tn_state n = v.
Proof.
  unfold states. rewrite nth_error_map. destruct (nth_error t k) as [n|]; [|discriminate]. cbn.
  intros H. injection H as <-. eauto.
Qed.

Lemma states_length (t : tree V I) : length (states t) = length t.
Proof. apply map_length. Qed.

Lemma find_from_some (t : tree V I) v : forall k j, find_from eqv k t v = Some j ->
  (k <= j)%nat /\ exists n, nth_error t (j - k) = Some n /\ tn_state n = v.
Proof.
  induction t as [|a t IH]; intros k j; cbn [find_from]; [discriminate|].
  destruct (eqv (tn_state a) v) eqn:Ee; intros H.
  - injection H as <-. split; [lia|]. exists a. rewrite Nat.sub_diag. split; [reflexivity|]. apply eqv_ok, Ee.
  - destruct (IH _ _ H) as (L & n & Hn & Hs). split; [lia|]. exists n. split; [|exact Hs].
    replace (j - k)%nat with (S (j - S k))%nat by lia. exact Hn.
Qed.

Lemma find_some (t : tree V I) v j : find_state eqv t v = Some j -> exists n, nth_error t j = Some n /\ tn_state n = v.
Proof. intros H. destruct (find_from_some _ _ _ _ H) as (_ & n & Hn & Hs). rewrite Nat.sub_0_r in Hn. eauto. Qed.

Lemma find_none (t : tree V I) v : find_state eqv t v = None -> ~ In v (states t).
Proof.
  unfold find_state. generalize 0%nat. induction t as [|a t IH]; intros k; cbn [find_from]; [intros _ []|].
  destruct (eqv (tn_state a) v) eqn:Ee; [discriminate|]. intros H [X|X].
  - apply eqv_ok in X. congruence.
  - exact (IH _ H X).
Qed.

Lemma find_in (t : tree V I) v : In v (states t) -> exists j, find_state eqv t v = Some j.
Proof.
  intros H. destruct (find_state eqv t v) as [j|] eqn:Ef; [eauto|]. destruct (find_none _ _ Ef H).
Qed.

Lemma nodup_index (t : tree V I) i j n m : NoDup (states t) -> nth_error t i = Some n -> nth_error t j = Some m ->
  tn_state n = tn_state m -> i = j.
Proof.
  intros N Hi Hj Hs. apply (NoDup_nth_error (states t)); [exact N| |].
  - rewrite states_length. apply nth_error_Some. congruence.
  - rewrite (states_nth _ _ _ Hi), (states_nth _ _ _ Hj). congruence.
Qed.

Lemma find_index (t : tree V I) k n : NoDup (states t) -> nth_error t k = Some n -> find_state eqv t (tn_state n) = Some k.
Proof.
  intros N Hk. destruct (find_in t (tn_state n)) as [j Hj].
  { apply nth_error_In with k, states_nth, Hk. }
  destruct (find_some _ _ _ Hj) as (m & Hm & Hs). rewrite Hj. f_equal.
  exact (nodup_index _ _ _ _ _ N Hm Hk Hs).
Qed.

Variable nearest : Z -> list V -> V -> nat.

Lemma get_nearest_spec it (t : tree V I) v o : NoDup (states t) -> get_nearest_node eqv nearest it t v = Ok o ->
  exists n, nth_error t (nearest it (states t) v) = Some n /\ o = Some (nearest it (states t) v).
Proof.
  intros N. unfold get_nearest_node, vget. destruct (nth_error (states t) _) as [p|] eqn:Ep; cbn [bind]; [|discriminate].
  intros H. destruct (states_nth_inv _ _ _ Ep) as (n & Hn & Hs). exists n. split; [exact Hn|].
  rewrite <- Hs, (find_index _ _ _ N Hn) in H. congruence.
Qed.

Lemma get_nearest_total it (t : tree V I) v : answers nearest -> NoDup (states t) -> t <> [] ->
  exists n, nth_error t (nearest it (states t) v) = Some n /\
    get_nearest_node eqv nearest it t v = Ok (Some (nearest it (states t) v)).
Proof.
  intros A N Ht. assert (L : (nearest it (states t) v < length (states t))%nat).
  { apply A. intros X. apply Ht. apply map_eq_nil with (1 := X). }
  destruct (nth_error (states t) (nearest it (states t) v)) as [p|] eqn:Ep.
  - destruct (states_nth_inv _ _ _ Ep) as (n & Hn & Hs). exists n. split; [exact Hn|].
    unfold get_nearest_node, vget. rewrite Ep. cbn [bind]. rewrite <- Hs, (find_index _ _ _ N Hn). reflexivity.
  - apply nth_error_None in Ep. lia.
Qed.

Variable E : V -> V -> Prop.
Variable init : V.

Record twf (t : tree V I) : Prop := {
  twf_root : exists n, nth_error t 0 = Some n /\ tn_state n = init /\ tn_parent n = None;
  twf_child : forall k n, nth_error t (S k) = Some n -> exists p m, tn_parent n = Some p /\ (p <= k)%nat /\
    nth_error t p = Some m /\ E (tn_state m) (tn_state n);
  twf_once : NoDup (states t)
}.

Lemma root_wf : twf (create_root info0 init).
Proof.
  constructor.
  - exists (TNode init None info0). auto.
  - intros k n H. destruct k; discriminate.
  - cbn. constructor; [intros []|constructor].
Qed.

Lemma twf_nonempty t : twf t -> t <> [].
Proof. intros W X. subst. destruct (twf_root _ W) as (n & H & _). discriminate. Qed.

Lemma append_wf t s n v i : twf t -> nth_error t s = Some n -> ~ In v (states t) -> E (tn_state n) v ->
  twf (t ++ [TNode v (Some s) i]).
Proof.
  intros W Hs F He. assert (Ls : (s < length t)%nat) by (apply nth_error_Some; congruence). constructor.
  - destruct (twf_root _ W) as (r & Hr & R1 & R2). exists r. split; [|auto].
    rewrite nth_error_app1; [exact Hr|lia].
  - intros k m Hm. destruct (lt_dec (S k) (length t)) as [L|L].
    + rewrite nth_error_app1 in Hm by exact L. destruct (twf_child _ W _ _ Hm) as (p & q & Hp & Lp & Hq & Hx).
      exists p, q. split; [exact Hp|]. split; [exact Lp|]. split; [|exact Hx]. rewrite nth_error_app1; [exact Hq|lia].
    + assert (Lk : S k = length t).
      { assert (X : (S k < length (t ++ [TNode v (Some s) i]))%nat) by (apply nth_error_Some; congruence).
        rewrite app_length in X. cbn in X. lia. }
      rewrite nth_error_app2, Lk, Nat.sub_diag in Hm by lia. cbn in Hm. injection Hm as <-.
      exists s, n. cbn. split; [reflexivity|]. split; [lia|]. split; [|exact He].
      rewrite nth_error_app1; [exact Hs|exact Ls].
  - unfold states. rewrite map_app. cbn. change (map tn_state t) with (states t).
    assert (A : Add v (states t) (states t ++ [v])) by (rewrite <- (app_nil_r (states t)) at 1; apply Add_app).
    apply (NoDup_Add A). split; [apply W|exact F].
Qed.

Lemma extend_spec it (t t' : tree V I) v s n o : twf t -> nth_error t s = Some n -> E (tn_state n) v ->
  extend eqv info0 nearest it t v (Some s) = Ok (t', o) ->
  exists k m, o = Some k /\ twf t' /\ nth_error t' k = Some m /\ tn_state m = v /\ (length t' <= S (length t))%nat /\
    ((t' = t /\ In v (states t)) \/ (~ In v (states t) /\ t' = t ++ [TNode v (Some s) info0] /\ k = length t)).
Proof.
  intros W Hs He. unfold extend. destruct (find_state eqv t v) as [k|] eqn:Ef.
  - intros H. injection H as <- <-. destruct (find_some _ _ _ Ef) as (m & Hm & Hv).
    exists k, m. split; [reflexivity|]. split; [exact W|]. split; [exact Hm|]. split; [exact Hv|]. split; [lia|].
    left. split; [reflexivity|]. rewrite <- Hv. apply nth_error_In with k, states_nth, Hm.
  - cbn [bind]. intros H. injection H as <- <-. exists (length t), (TNode v (Some s) info0).
    split; [reflexivity|]. split; [apply append_wf with n; auto; apply find_none, Ef|].
    split; [rewrite nth_error_app2, Nat.sub_diag by lia; reflexivity|]. split; [reflexivity|].
    split; [rewrite app_length; cbn; lia|]. right. split; [apply find_none, Ef|auto].
Qed.

Lemma extend_total it (t : tree V I) v s :
  exists t' k, extend eqv info0 nearest it t v (Some s) = Ok (t', Some k).
Proof. unfold extend. destruct (find_state eqv t v); cbn [bind]; eauto. Qed.

Lemma set_info_wf (t t' : tree V I) k i : twf t -> set_info t k i = Ok t' -> twf t'.
Proof.
  intros W H. assert (St := set_info_states _ _ _ _ H). destruct (set_info_spec _ _ _ _ H) as (n & Hn & L & X).
  assert (G : forall j m, nth_error t j = Some m ->
    exists m', nth_error t' j = Some m' /\ tn_state m' = tn_state m /\ tn_parent m' = tn_parent m).
  { intros j m Hm. rewrite X. destruct (Nat.eqb_spec j k) as [->|_]; [|eauto].
    eexists. split; [reflexivity|]. cbn. rewrite Hn in Hm. injection Hm as <-. auto. }
  assert (G' : forall j m, nth_error t' j = Some m ->
    exists m', nth_error t j = Some m' /\ tn_state m' = tn_state m /\ tn_parent m' = tn_parent m).
  { intros j m Hm. rewrite X in Hm. destruct (Nat.eqb_spec j k) as [->|_]; [|eauto].
    injection Hm as <-. exists n. auto. }
  constructor.
  - destruct (twf_root _ W) as (r & Hr & R1 & R2). destruct (G _ _ Hr) as (r' & Hr' & S1 & S2).
    exists r'. split; [exact Hr'|]. split; congruence.
  - intros j m Hm. destruct (G' _ _ Hm) as (m' & Hm' & S1 & S2).
    destruct (twf_child _ W _ _ Hm') as (p & q & Hp & Lp & Hq & He). destruct (G _ _ Hq) as (q' & Hq' & T1 & T2).
    exists p, q'. split; [congruence|]. split; [exact Lp|]. split; [exact Hq'|]. congruence.
  - rewrite St. apply W.
Qed.

(** Reading the path back. *)
Lemma linked_snoc l a b : linked E l -> nth_error l (length l - 1) = Some a -> E a b -> linked E (l ++ [b]).
Proof.
  intros Hl Ha He i x y Hx Hy.
  assert (Lx : (S i < length (l ++ [b]))%nat) by (apply nth_error_Some; congruence).
  rewrite app_length in Lx. cbn in Lx. destruct (lt_dec (S i) (length l)) as [L|L].
  - rewrite nth_error_app1 in Hx by lia. rewrite nth_error_app1 in Hy by lia. exact (Hl _ _ _ Hx Hy).
  - assert (Li : S i = length l) by lia. rewrite nth_error_app1 in Hx by lia.
    rewrite nth_error_app2, Li, Nat.sub_diag in Hy by lia. cbn in Hy. injection Hy as <-.
    replace (length l - 1)%nat with i in Ha by lia. congruence.
Qed.

Lemma read_back (t : tree V I) : twf t -> forall k fuel n, (k < fuel)%nat -> nth_error t k = Some n ->
  exists d l, depth fuel t k = Ok d /\ path_between E init (tn_state n) l /\
    forall acc, fill (S d) t (Some k) acc = Ok (l ++ acc).
Proof.
  intros W. induction k as [k IH] using lt_wf_ind. intros fuel n Lf Hn. destruct fuel as [|f]; [lia|].
  cbn [depth]. unfold vget. rewrite Hn. cbn [bind]. destruct k as [|k].
  - destruct (twf_root _ W) as (r & Hr & R1 & R2). rewrite Hn in Hr. injection Hr as <-. rewrite R2.
    exists 0%nat, [init]. split; [reflexivity|]. split.
    + split; [reflexivity|]. split; [cbn; congruence|]. intros i a b _ Hb. destruct i; discriminate.
    + intros acc. cbn [fill]. unfold vget. rewrite Hn. cbn [bind]. rewrite R1. reflexivity.
  - destruct (twf_child _ W _ _ Hn) as (p & m & Hp & Lp & Hm & He). rewrite Hp.
    destruct (IH p ltac:(lia) f m ltac:(lia) Hm) as (d & l & Hd & (P1 & P2 & P3) & Hf). rewrite Hd. cbn [bind].
    exists (S d), (l ++ [tn_state n]). split; [reflexivity|]. split.
    + assert (Ll : (0 < length l)%nat) by (destruct l; [discriminate|cbn; lia]). split; [|split].
      * rewrite nth_error_app1 by lia. exact P1.
      * rewrite app_length. cbn [length]. replace (length l + 1 - 1)%nat with (length l) by lia.
        rewrite nth_error_app2, Nat.sub_diag by lia. reflexivity.
      * exact (linked_snoc _ _ _ P3 P2 He).
    + intros acc. remember (S d) as sd. cbn [fill]. unfold vget at 1. rewrite Hn. cbn [bind].
      rewrite Hp. rewrite Hf, <- app_assoc. reflexivity.
Qed.

Lemma get_path_spec (t : tree V I) k n : twf t -> nth_error t k = Some n ->
  exists l, get_path t (Some k) = Ok l /\ path_between E init (tn_state n) l.
Proof.
  intros W Hn. assert ((k < length t)%nat) by (apply nth_error_Some; congruence).
  destruct (read_back t W k (S (length t)) n ltac:(lia) Hn) as (d & l & Hd & Hp & Hf).
  exists l. split; [|exact Hp]. unfold get_path. rewrite Hd. cbn [bind]. rewrite Hf, app_nil_r. reflexivity.
Qed.
End TreeProofs.

Section LoopProofs.
Context {V I : Type}.
Variable body : Z -> tree V I -> res (tree V I * option nat).
Variables maxIteration maxNode : Z.

Lemma search_loop_S fuel count t : search_loop maxIteration maxNode body (S fuel) count t =
  if (max_int <? count)%Z then UB
  else if (maxIteration <? count)%Z then Ok (false, t, None, count)
  else if (maxNode <? Z.of_nat (length t))%Z then Ok (false, t, None, count)
  else do (t', sol) <- body count t;
       match sol with
       | Some k => Ok (true, t', Some k, (count + 1)%Z)
       | None => search_loop maxIteration maxNode body fuel (count + 1)%Z t'
       end.
Proof. reflexivity. Qed.

Variable start : tree V I.
Let go := search_loop maxIteration maxNode body.

(** The tree that the search returns is visited, or comes from the body that found the solution. *)
Lemma loop_visited fuel : forall count t b t' s n, visited body start count t -> go fuel count t = Ok (b, t', s, n) ->
  if b then exists c t0 k, visited body start c t0 /\ body c t0 = Ok (t', Some k) /\ s = Some k
  else s = None /\ visited body start n t'.
Proof.
  subst go. induction fuel as [|f IH]; intros count t b t' s n Hv; [discriminate|]. rewrite search_loop_S.
  destruct (max_int <? count)%Z; [discriminate|]. destruct (maxIteration <? count)%Z.
  { intros H. assert (b = false /\ t' = t /\ s = None /\ n = count) as (-> & -> & -> & ->) by (repeat split; congruence). auto. }
  destruct (maxNode <? Z.of_nat (length t))%Z.
  { intros H. assert (b = false /\ t' = t /\ s = None /\ n = count) as (-> & -> & -> & ->) by (repeat split; congruence). auto. }
  destruct (body count t) as [[t1 [k|]]| | |] eqn:Eb; cbn [bind]; try discriminate.
  - intros H. assert (b = true /\ t' = t1 /\ s = Some k) as (-> & -> & ->) by (repeat split; congruence).
    exists count, t, k. auto.
  - intros H. apply (IH _ _ _ _ _ _ (visited_next _ _ _ _ _ Hv Eb) H).
Qed.

Lemma visited_inv (Inv : tree V I -> Prop) : Inv start ->
  (forall c t t' s, visited body start c t -> Inv t -> body c t = Ok (t', s) -> Inv t') ->
  forall c t, visited body start c t -> Inv t.
Proof. intros H0 Hs c t Hv. induction Hv as [|c t t' Hv IH Hb]; [exact H0|]. exact (Hs _ _ _ _ Hv IH Hb). Qed.

Lemma search_inv (Inv : tree V I -> Prop) fuel b t' s n : Inv start ->
  (forall c t t' s, visited body start c t -> Inv t -> body c t = Ok (t', s) -> Inv t') ->
  go fuel 0 start = Ok (b, t', s, n) -> Inv t'.
Proof.
  intros H0 Hs H. assert (X := loop_visited _ _ _ _ _ _ _ (visited_start _ _) H). destruct b.
  - destruct X as (c & t0 & k & Hv & Hb & _). exact (Hs _ _ _ _ Hv (visited_inv Inv H0 Hs _ _ Hv) Hb).
  - exact (visited_inv Inv H0 Hs _ _ (proj2 X)).
Qed.

(** Budgets. *)
Lemma loop_budget (Inv : tree V I -> Prop) :
  (0 <= maxIteration < max_int)%Z -> (0 <= maxNode)%Z ->
  (forall c t, Inv t -> exists t' s, body c t = Ok (t', s) /\ Inv t' /\ (length t' <= S (length t))%nat) ->
  forall fuel count t, Inv t -> (0 <= count <= maxIteration + 1)%Z -> (Z.to_nat (maxIteration + 1 - count) < fuel)%nat ->
  (Z.of_nat (length t) <= maxNode + 1)%Z ->
  exists b t' s n, go fuel count t = Ok (b, t', s, n) /\ Inv t' /\ (count <= n <= maxIteration + 1)%Z /\
    (Z.of_nat (length t') <= maxNode + 1)%Z.
Proof.
  intros M1 M2 Hs. subst go. induction fuel as [|f IH]; intros count t Hi Hc Lf Lt; [lia|]. rewrite search_loop_S.
  destruct (Z.ltb_spec max_int count) as [L|L]; [lia|].
  destruct (Z.ltb_spec maxIteration count) as [L1|L1].
  { exists false, t, None, count. split; [reflexivity|]. split; [exact Hi|]. split; lia. }
  destruct (Z.ltb_spec maxNode (Z.of_nat (length t))) as [L2|L2].
  { exists false, t, None, count. split; [reflexivity|]. split; [exact Hi|]. split; lia. }
  destruct (Hs count t Hi) as (t1 & s & -> & Hi1 & Ll). cbn [bind]. destruct s as [k|].
  - exists true, t1, (Some k), (count + 1)%Z. split; [reflexivity|]. split; [exact Hi1|]. split; lia.
  - destruct (IH (count + 1)%Z t1 Hi1 ltac:(lia) ltac:(lia) ltac:(lia)) as (b & t' & s & n & H & Hi' & Hn & Lt').
    exists b, t', s, n. split; [exact H|]. split; [exact Hi'|]. split; lia.
Qed.

(** Past the largest int the counter overflows. *)
Lemma loop_overflow : (max_int <= maxIteration)%Z ->
  (forall c, body c start = Ok (start, None)) -> (Z.of_nat (length start) <= maxNode)%Z ->
  forall fuel count, (0 <= count <= max_int + 1)%Z -> go fuel count start = UB \/ go fuel count start = NoFuel.
Proof.
  intros M Hb Hl. subst go. induction fuel as [|f IH]; intros count Hc; [right; reflexivity|]. rewrite search_loop_S.
  destruct (Z.ltb_spec max_int count) as [L|L]; [left; reflexivity|].
  destruct (Z.ltb_spec maxIteration count) as [L1|L1]; [lia|].
  destruct (Z.ltb_spec maxNode (Z.of_nat (length start))) as [L2|L2]; [lia|].
  rewrite Hb. cbn [bind]. apply IH. lia.
Qed.

Lemma loop_overflow_reached : (max_int <= maxIteration)%Z ->
  (forall c, body c start = Ok (start, None)) -> (Z.of_nat (length start) <= maxNode)%Z ->
  forall fuel count, (0 <= count <= max_int + 1)%Z -> (Z.to_nat (max_int + 1 - count) < fuel)%nat ->
  go fuel count start = UB.
Proof.
  intros M Hb Hl. subst go. induction fuel as [|f IH]; intros count Hc Lf; [lia|]. rewrite search_loop_S.
  destruct (Z.ltb_spec max_int count) as [L|L]; [reflexivity|].
  destruct (Z.ltb_spec maxIteration count) as [L1|L1]; [lia|].
  destruct (Z.ltb_spec maxNode (Z.of_nat (length start))) as [L2|L2]; [lia|].
  rewrite Hb. cbn [bind]. apply IH; lia.
Qed.
End LoopProofs.

Section RrtProofs.
Context {V P : Type}.
Variable eqv : V -> V -> bool.
Hypothesis eqv_ok : decides eqv.
Variable final : P -> V.
Variable steer : V -> V -> P.
Variable valid : P -> bool.
Variable issol : V -> bool.
Variable sample : Z -> V.
Variable nearest : Z -> list V -> V -> nat.
Variables maxIteration maxNode : Z.
Variable init : V.

Notation accepted := (accepted final steer valid).
Let body := rrt_body eqv final steer valid issol sample nearest.
Let search := rrt_search eqv final steer valid issol sample nearest maxIteration maxNode init.

Lemma rrt_body_spec it t t' s : twf accepted init t -> body it t = Ok (t', s) ->
  twf accepted init t' /\ (length t' <= S (length t))%nat /\
  (forall k, s = Some k -> exists n, nth_error t' k = Some n /\ issol (tn_state n) = true).
Proof.
  intros W. unfold body, rrt_body.
  destruct (get_nearest_node eqv nearest it t (sample it)) as [o| | |] eqn:En; cbn [bind]; try discriminate.
  destruct (get_nearest_spec eqv eqv_ok None nearest it t _ _ (twf_once _ _ _ W) En) as (n & Hn & ->).
  unfold vget at 1. rewrite Hn. cbn [bind]. set (p := steer (tn_state n) (sample it)).
  destruct (valid p) eqn:Ev; cbn [negb].
  2: { intros H. injection H as <- <-. split; [exact W|]. split; [lia|]. discriminate. }
  destruct (extend eqv None nearest it t (final p) (Some (nearest it (states t) (sample it)))) as [[t1 new]| | |] eqn:Ee;
    cbn [bind]; try discriminate.
  assert (Ac : accepted (tn_state n) (final p)) by (exists (sample it); auto).
  destruct (extend_spec eqv eqv_ok None nearest accepted init it t t1 (final p) _ n new W Hn Ac Ee)
    as (k & m & -> & W1 & Hm & Sm & Ll & _).
  destruct (set_info t1 k (Some p)) as [t2| | |] eqn:Es; cbn [bind]; try discriminate.
  intros H. assert (t' = t2 /\ s = if issol (final p) then Some k else None) as (-> & ->) by (split; congruence).
  assert (W2 := set_info_wf eqv eqv_ok None nearest accepted init _ _ _ _ W1 Es). destruct (set_info_spec _ _ _ _ Es) as (n1 & Hn1 & Ll2 & X).
  split; [exact W2|]. split; [lia|]. intros k' Hk. destruct (issol (final p)) eqn:Ei; [|discriminate].
  injection Hk as <-. eexists. rewrite X, Nat.eqb_refl. split; [reflexivity|]. cbn. congruence.
Qed.

Lemma rrt_body_total it t : answers nearest -> twf accepted init t ->
  exists t' s, body it t = Ok (t', s) /\ twf accepted init t' /\ (length t' <= S (length t))%nat.
Proof.
  intros A W. assert (Hb : exists t' s, body it t = Ok (t', s)).
  { unfold body, rrt_body.
    destruct (get_nearest_total eqv eqv_ok None nearest it t (sample it) A (twf_once _ _ _ W) (twf_nonempty eqv eqv_ok None nearest _ _ _ W))
      as (n & Hn & ->).
    cbn [bind]. unfold vget at 1. rewrite Hn. cbn [bind]. set (p := steer (tn_state n) (sample it)).
    destruct (valid p) eqn:Ev; cbn [negb]; [|eauto].
    destruct (extend_total eqv eqv_ok (@None P) nearest accepted init it t (final p) (nearest it (states t) (sample it))) as (t1 & k & Ee).
    rewrite Ee. cbn [bind].
    assert (Ac : accepted (tn_state n) (final p)) by (exists (sample it); auto).
    destruct (extend_spec eqv eqv_ok None nearest accepted init it t t1 (final p) _ n _ W Hn Ac Ee)
      as (k' & m & Hk & W1 & Hm & _).
    injection Hk as <-. destruct (set_info_total t1 k m (Some p) Hm) as [t2 ->]. cbn [bind]. eauto. }
  destruct Hb as (t' & s & Hb). exists t', s. split; [exact Hb|].
  destruct (rrt_body_spec _ _ _ _ W Hb) as (W' & L & _). auto.
Qed.

Lemma rrt_success t s n : search = Ok (true, t, s, n) ->
  exists l g, get_path t s = Ok l /\ path_between accepted init g l /\ issol g = true.
Proof.
  intros H. assert (X := loop_visited _ _ _ _ _ _ _ _ _ _ _ (visited_start _ _) H). cbn beta iota in X.
  destruct X as (c & t0 & k & Hv & Hb & ->).
  assert (W0 : twf accepted init t0).
  { apply (visited_inv _ maxIteration maxNode _ (twf accepted init) (root_wf eqv eqv_ok None nearest accepted init)) with (2 := Hv).
    intros c' t1 t2 s' _ Hi Hb'. exact (proj1 (rrt_body_spec _ _ _ _ Hi Hb')). }
  destruct (rrt_body_spec _ _ _ _ W0 Hb) as (W & _ & Hs). destruct (Hs k eq_refl) as (nd & Hn & Hi).
  destruct (get_path_spec eqv eqv_ok None nearest accepted init t k nd W Hn) as (l & Hl & Hp). exists l, (tn_state nd). auto.
Qed.

Lemma rrt_failure t s n : search = Ok (false, t, s, n) -> get_path t s = Ok [].
Proof.
  intros H. assert (X := loop_visited _ _ _ _ _ _ _ _ _ _ _ (visited_start _ _) H). cbn beta iota in X.
  destruct X as (-> & _). reflexivity.
Qed.

Lemma rrt_terminates : answers nearest -> (0 <= maxIteration < max_int)%Z -> (0 <= maxNode)%Z ->
  exists b t s n, search = Ok (b, t, s, n) /\ (0 <= n <= maxIteration + 1)%Z /\
    (Z.of_nat (length t) <= maxNode + 1)%Z /\ NoDup (states t).
Proof.
  intros A M1 M2.
  destruct (loop_budget body maxIteration maxNode (create_root None init) (twf accepted init) M1 M2) with
    (fuel := S (S (Z.to_nat maxIteration))) (count := 0%Z) (t := @create_root V (option P) None init)
    as (b & t & s & n & H & W & Hn & Hl).
  - intros c t W. exact (rrt_body_total c t A W).
  - apply (root_wf eqv eqv_ok None nearest).
  - lia.
  - lia.
  - cbn. lia.
  - exists b, t, s, n. split; [exact H|]. split; [exact Hn|]. split; [exact Hl|]. apply W.
Qed.
End RrtProofs.
