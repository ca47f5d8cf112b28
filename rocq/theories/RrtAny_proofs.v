(** The random tree planners, whatever [Equal] is: the two zeros of the doubles are equal but not the same, and a number that is not comparable does not
    equal itself. [G] holds of the states of the tree. *)
From Coq Require Import ZArith Lia.
From Verif Require Import Base Rrt_model Rrt_spec Rrt_proofs.

Section Grow.
Context {V I : Type}.
Variable eqv : V -> V -> bool.
Variable E : V -> V -> Prop.
Variable G : V -> Prop.
Variable init : V.

Record grown (t : tree V I) : Prop := {
  grown_root : exists n, nth_error t 0 = Some n /\ tn_state n = init /\ tn_parent n = None;
  grown_child : forall k n, nth_error t (S k) = Some n -> exists p m, tn_parent n = Some p /\ (p <= k)%nat /\ nth_error t p = Some m /\ E (tn_state m) (tn_state n);
  grown_all : forall k n, nth_error t k = Some n -> G (tn_state n)
}.

Lemma found (t : tree V I) v : forall k j, find_from eqv k t v = Some j -> (k <= j)%nat /\ exists n, nth_error t (j - k) = Some n /\ eqv (tn_state n) v = true.
Proof. clear E G init.
  induction t as [|a t IH]; intros k j; cbn [find_from]; [discriminate|]. destruct (eqv (tn_state a) v) eqn:Ee; intros H.
  - injection H as <-. split; [lia|]. exists a. rewrite Nat.sub_diag. auto.
  - destruct (IH _ _ H) as (L & n & Hn & Hs). split; [lia|]. exists n. split; [|exact Hs]. replace (j - k)%nat with (S (j - S k))%nat by lia. exact Hn.
Qed.
Lemma found_node (t : tree V I) v j : find_state eqv t v = Some j -> exists n, nth_error t j = Some n /\ eqv (tn_state n) v = true.
Proof. clear E G init. intros H. destruct (found _ _ _ _ H) as (_ & n & Hn & Hs). rewrite Nat.sub_0_r in Hn. eauto. Qed.
Lemma not_found (t : tree V I) v : find_state eqv t v = None -> forall k n, nth_error t k = Some n -> eqv (tn_state n) v = false.
Proof. clear E G init.
  unfold find_state. generalize 0%nat. induction t as [|a t IH]; intros b H k n Hn; [destruct k; discriminate|]. cbn [find_from] in H.
  destruct (eqv (tn_state a) v) eqn:Ee; [discriminate|]. destruct k as [|k]; [injection Hn as <-; exact Ee|exact (IH _ H _ _ Hn)].
Qed.

Lemma root_grown i : G init -> grown (create_root i init).
Proof.
  intros H0. constructor.
  - exists (TNode init None i). auto.
  - intros k n H. destruct k; discriminate.
  - intros k n H. destruct k as [|k]; [injection H as <-; exact H0|destruct k; discriminate].
Qed.

Lemma appended (t : tree V I) x k m : nth_error (t ++ [x]) k = Some m -> nth_error t k = Some m \/ (k = length t /\ m = x).
Proof. clear eqv E G init.
  intros Hm. destruct (lt_dec k (length t)) as [L|L]; [rewrite nth_error_app1 in Hm by exact L; auto|]. rewrite nth_error_app2 in Hm by lia.
  destruct (k - length t)%nat as [|j] eqn:Ej; [|destruct j; discriminate]. cbn in Hm. injection Hm as <-. right. split; [lia|reflexivity].
Qed.

Lemma append_grown (t : tree V I) s n v i : grown t -> nth_error t s = Some n -> E (tn_state n) v -> G v -> grown (t ++ [TNode v (Some s) i]).
Proof. clear eqv.
  intros W Hs He Hg. assert (Ls : (s < length t)%nat) by (apply nth_error_Some; congruence).
  assert (Y : forall k m, nth_error t k = Some m -> nth_error (t ++ [TNode v (Some s) i]) k = Some m).
  { intros k m Hm. rewrite nth_error_app1; [exact Hm|]. apply nth_error_Some. congruence. }
  constructor.
  - destruct (grown_root _ W) as (r & Hr & R). exists r. auto.
  - intros k m Hm. destruct (appended _ _ _ _ Hm) as [Ho|[Lk ->]].
    + destruct (grown_child _ W _ _ Ho) as (p & q & Hp & Lp & Hq & Hx). exists p, q. auto.
    + exists s, n. cbn. split; [reflexivity|]. split; [lia|]. auto.
  - intros k m Hm. destruct (appended _ _ _ _ Hm) as [Ho|[_ ->]]; [exact (grown_all _ W _ _ Ho)|exact Hg].
Qed.

Lemma info_back (t t' : tree V I) k i j m : set_info t k i = Ok t' -> nth_error t' j = Some m ->
  exists m', nth_error t j = Some m' /\ tn_state m' = tn_state m /\ tn_parent m' = tn_parent m.
Proof.
  intros H Hm. destruct (set_info_spec _ _ _ _ H) as (n & Hn & L & X). rewrite X in Hm.
  destruct (Nat.eqb_spec j k) as [->|_]; [|eauto]. injection Hm as <-. exists n. auto.
Qed.

Lemma info_grown (t t' : tree V I) k i : grown t -> set_info t k i = Ok t' -> grown t'.
Proof.
  intros W H. destruct (set_info_spec _ _ _ _ H) as (n & Hn & L & X).
  assert (A : forall j m, nth_error t j = Some m -> exists m', nth_error t' j = Some m' /\ tn_state m' = tn_state m /\ tn_parent m' = tn_parent m).
  { intros j m Hm. rewrite X. destruct (Nat.eqb_spec j k) as [->|_]; [|eauto]. eexists. split; [reflexivity|]. cbn. rewrite Hn in Hm. injection Hm as <-. auto. }
  pose proof (fun j m => info_back t t' k i j m H) as B.
  constructor.
  - destruct (grown_root _ W) as (r & Hr & R1 & R2). destruct (A _ _ Hr) as (r' & Hr' & S1 & S2). exists r'. split; [exact Hr'|]. split; congruence.
  - intros j m Hm. destruct (B _ _ Hm) as (m' & Hm' & S1 & S2). destruct (grown_child _ W _ _ Hm') as (p & q & Hp & Lp & Hq & He). destruct (A _ _ Hq) as (q' & Hq' & T1 & T2).
    exists p, q'. split; [congruence|]. split; [exact Lp|]. split; [exact Hq'|]. congruence.
  - intros j m Hm. destruct (B _ _ Hm) as (m' & Hm' & S1 & _). rewrite <- S1. exact (grown_all _ W _ _ Hm').
Qed.

Lemma read_grown (t : tree V I) : grown t -> forall k fuel n, (k < fuel)%nat -> nth_error t k = Some n ->
  exists d l, depth fuel t k = Ok d /\ path_between E init (tn_state n) l /\ forall acc, fill (S d) t (Some k) acc = Ok (l ++ acc).
Proof. clear eqv.
  intros W. induction k as [k IH] using lt_wf_ind. intros fuel n Lf Hn. destruct fuel as [|f]; [lia|].
  cbn [depth]. unfold vget. rewrite Hn. cbn [bind]. destruct k as [|k].
  - destruct (grown_root _ W) as (r & Hr & R1 & R2). rewrite Hn in Hr. injection Hr as <-. rewrite R2. exists 0%nat, [init]. split; [reflexivity|]. split.
    + split; [reflexivity|]. split; [cbn; congruence|]. intros i a b _ Hb. destruct i; discriminate.
    + intros acc. cbn [fill]. unfold vget. rewrite Hn. cbn [bind]. rewrite R1. reflexivity.
  - destruct (grown_child _ W _ _ Hn) as (p & m & Hp & Lp & Hm & He). rewrite Hp.
    destruct (IH p ltac:(lia) f m ltac:(lia) Hm) as (d & l & Hd & (P1 & P2 & P3) & Hf). rewrite Hd. cbn [bind].
    exists (S d), (l ++ [tn_state n]). split; [reflexivity|]. split.
    + assert (Ll : (0 < length l)%nat) by (destruct l; [discriminate|cbn; lia]). split; [|split].
      * rewrite nth_error_app1 by lia. exact P1.
      * rewrite app_length. cbn [length]. replace (length l + 1 - 1)%nat with (length l) by lia. rewrite nth_error_app2, Nat.sub_diag by lia. reflexivity.
      * intros i x y Hx Hy. assert (Lx : (S i < length (l ++ [tn_state n]))%nat) by (apply nth_error_Some; congruence).
        rewrite app_length in Lx. cbn in Lx. destruct (lt_dec (S i) (length l)) as [L|L].
        -- rewrite nth_error_app1 in Hx by lia. rewrite nth_error_app1 in Hy by lia. exact (P3 _ _ _ Hx Hy).
        -- assert (Li : S i = length l) by lia. rewrite nth_error_app1 in Hx by lia. rewrite nth_error_app2, Li, Nat.sub_diag in Hy by lia. cbn in Hy. injection Hy as <-.
           replace (length l - 1)%nat with i in P2 by lia. congruence.
    + intros acc. remember (S d) as sd. cbn [fill]. unfold vget at 1. rewrite Hn. cbn [bind]. rewrite Hp. rewrite Hf, <- app_assoc. reflexivity.
Qed.

Lemma path_grown (t : tree V I) k n : grown t -> nth_error t k = Some n -> exists l, get_path t (Some k) = Ok l /\ path_between E init (tn_state n) l.
Proof. clear eqv.
  intros W Hn. assert (Lk : (k < length t)%nat) by (apply nth_error_Some; congruence).
  destruct (read_grown t W k (S (length t)) n ltac:(lia) Hn) as (d & l & Hd & Hp & Hf).
  exists l. split; [unfold get_path; rewrite Hd; cbn [bind]; rewrite Hf, app_nil_r; reflexivity|exact Hp].
Qed.

(** The states of the tree are distinct. *)
Definition separate (t : tree V I) : Prop := forall i j n m, (i < j)%nat -> nth_error t i = Some n -> nth_error t j = Some m -> eqv (tn_state n) (tn_state m) = false.
Lemma root_separate i : separate (create_root i init).
Proof. clear E G. intros j k n m L Hj Hk. destruct k as [|k]; [lia|]. destruct k; discriminate. Qed.
Lemma append_separate (t : tree V I) v p i : separate t -> find_state eqv t v = None -> separate (t ++ [TNode v p i]).
Proof. clear E G init.
  intros S F j k n m L Hj Hk. destruct (appended _ _ _ _ Hk) as [Hk'|[-> ->]].
  - destruct (appended _ _ _ _ Hj) as [Hj'|[-> ->]]; [exact (S _ _ _ _ L Hj' Hk')|]. assert ((k < length t)%nat) by (apply nth_error_Some; congruence). lia.
  - rewrite nth_error_app1 in Hj by lia. exact (not_found _ _ F _ _ Hj).
Qed.
Lemma info_separate (t t' : tree V I) k i : separate t -> set_info t k i = Ok t' -> separate t'.
Proof.
  intros S H a b n m L Ha Hb. destruct (info_back _ _ _ _ _ _ H Ha) as (n' & Hn & <- & _). destruct (info_back _ _ _ _ _ _ H Hb) as (m' & Hm & <- & _).
  exact (S _ _ _ _ L Hn Hm).
Qed.

Hypothesis reflexive : forall a, G a -> eqv a a = true.
(** A state of the tree is found where it is. *)
Lemma found_itself (t : tree V I) k n : grown t -> separate t -> nth_error t k = Some n -> find_state eqv t (tn_state n) = Some k.
Proof.
  intros W S Hn. destruct (find_state eqv t (tn_state n)) as [j|] eqn:F.
  - destruct (found_node _ _ _ F) as (m & Hm & Hq). f_equal. destruct (lt_eq_lt_dec j k) as [[L| ->]|L]; [|reflexivity|].
    + rewrite (S _ _ _ _ L Hm Hn) in Hq. discriminate.
    + exfalso. clear Hm Hq. revert F. unfold find_state. assert (X : forall b, (k + b < j + b)%nat -> find_from eqv b t (tn_state n) <> Some (j + b)%nat).
      { pose proof (reflexive _ (grown_all _ W _ _ Hn)) as R. clear W S. revert k j Hn L. induction t as [|a t' IH]; intros k j Hn L b Lb; [destruct k; discriminate|].
        cbn [find_from]. destruct (eqv (tn_state a) (tn_state n)) eqn:Ea; [intros X; injection X as X; lia|].
        destruct k as [|k]; [injection Hn as ->; congruence|]. destruct j as [|j]; [lia|].
        specialize (IH k j Hn ltac:(lia) (Datatypes.S b) ltac:(lia)). replace (Datatypes.S j + b)%nat with (j + Datatypes.S b)%nat by lia. exact IH. }
      specialize (X 0%nat ltac:(lia)). rewrite Nat.add_0_r in X. exact X.
  - pose proof (not_found _ _ F _ _ Hn) as X. rewrite (reflexive _ (grown_all _ W _ _ Hn)) in X. discriminate.
Qed.

Variable nearest : Z -> list V -> V -> nat.
Lemma nearest_node it (t : tree V I) v : answers nearest -> grown t -> separate t ->
  exists n, nth_error t (nearest it (states t) v) = Some n /\ get_nearest_node eqv nearest it t v = Ok (Some (nearest it (states t) v)).
Proof.
  intros A W S. assert (Ne : states t <> []). { destruct (grown_root _ W) as (r & Hr & _). destruct t; discriminate. }
  assert (L := A it (states t) v Ne). unfold states in L at 2. rewrite map_length in L.
  destruct (nth_error t (nearest it (states t) v)) as [n|] eqn:En; [|apply nth_error_None in En; lia].
  exists n. split; [reflexivity|]. unfold get_nearest_node, vget. unfold states at 1. rewrite nth_error_map, En. cbn [option_map bind].
  rewrite (found_itself _ _ _ W S En). reflexivity.
Qed.
End Grow.

Section Any.
Context {V P : Type}.
Variable eqv : V -> V -> bool.
Variable final : P -> V.
Variable steer : V -> V -> P.
Variable valid : P -> bool.
Variable issol : V -> bool.
Variable sample : Z -> V.
Variable nearest : Z -> list V -> V -> nat.
Variables maxIteration maxNode : Z.
Variable init : V.
Variable E : V -> V -> Prop.
Variable G : V -> Prop.
Hypothesis E_ok : forall a it, G a -> valid (steer a (sample it)) = true -> G (final (steer a (sample it))) /\ E a (final (steer a (sample it))).
Hypothesis G_init : G init.
(** [a] is a solution, or equals one. *)
Definition is_goal (a : V) : Prop := exists v, G v /\ issol v = true /\ (a = v \/ eqv a v = true).

Let body := rrt_body eqv final steer valid issol sample nearest.
Notation T := (tree V (option P)).
Notation grown := (grown (I := option P) E G init).
Notation separate := (separate (I := option P) eqv).

Lemma body_grown it (t t' : T) s : grown t -> body it t = Ok (t', s) ->
  grown t' /\ (separate t -> separate t') /\ (length t' <= S (length t))%nat /\ (forall k, s = Some k -> exists n, nth_error t' k = Some n /\ is_goal (tn_state n)).
Proof.
  intros W. unfold body, rrt_body. unfold get_nearest_node.
  assert (Same : forall t1 s1, Ok (t, None) = Ok (t1, s1) -> grown t1 /\ (separate t -> separate t1) /\ (length t1 <= S (length t))%nat /\
    (forall k, s1 = Some k -> exists n, nth_error t1 k = Some n /\ is_goal (tn_state n))).
  { intros t1 s1 H. injection H as <- <-. split; [exact W|]. split; [auto|]. split; [lia|discriminate]. }
  destruct (vget (states t) _) as [pt| | |]; cbn [bind]; try discriminate.
  destruct (find_state eqv t pt) as [ni|] eqn:Ef; [|apply Same].
  destruct (found_node eqv _ _ _ Ef) as (n & Hn & _). unfold vget at 1. rewrite Hn. cbn [bind]. set (p := steer (tn_state n) (sample it)).
  destruct (valid p) eqn:Ev; cbn [negb]; [|apply Same].
  destruct (E_ok (tn_state n) it (grown_all _ _ _ _ W _ _ Hn) Ev) as [Hg He]. fold p in Hg, He.
  assert (X : forall t1 k m, grown t1 -> (separate t -> separate t1) -> (length t1 <= S (length t))%nat -> nth_error t1 k = Some m -> (issol (final p) = true -> is_goal (tn_state m)) ->
    (do t2 <- set_info t1 k (Some p); Ok (t2, if issol (final p) then Some k else None)) = Ok (t', s) ->
    grown t' /\ (separate t -> separate t') /\ (length t' <= S (length t))%nat /\ (forall k, s = Some k -> exists n, nth_error t' k = Some n /\ is_goal (tn_state n))).
  { intros t1 k m W1 S1 L1 Hm Hi. destruct (set_info t1 k (Some p)) as [t2| | |] eqn:Es; cbn [bind]; try discriminate.
    intros H. assert (t' = t2 /\ s = if issol (final p) then Some k else None) as (-> & ->) by (split; congruence).
    split; [exact (info_grown _ _ _ _ _ _ _ W1 Es)|]. split; [intros S0; exact (info_separate _ _ _ _ _ (S1 S0) Es)|].
    destruct (set_info_spec _ _ _ _ Es) as (n1 & Hn1 & L2 & X). split; [lia|]. intros k' Hk. destruct (issol (final p)); [|discriminate].
    injection Hk as <-. eexists. rewrite X, Nat.eqb_refl. split; [reflexivity|]. cbn. rewrite Hn1 in Hm. injection Hm as ->. auto. }
  unfold extend. destruct (find_state eqv t (final p)) as [k|] eqn:Ek; cbn [bind].
  - destruct (found_node eqv _ _ _ Ek) as (m & Hm & Hq). apply X with m; auto. intros Hi. exists (final p). auto.
  - apply X with (TNode (final p) (Some ni) None).
    + now apply append_grown with n.
    + intros S0. now apply append_separate.
    + rewrite app_length. cbn [length]. lia.
    + rewrite nth_error_app2, Nat.sub_diag by lia. reflexivity.
    + intros Hi. exists (final p). auto.
Qed.

Lemma any_success t s n : rrt_search eqv final steer valid issol sample nearest maxIteration maxNode init = Ok (true, t, s, n) ->
  exists l g, get_path t s = Ok l /\ path_between E init g l /\ G g /\ is_goal g.
Proof.
  intros H. assert (X := loop_visited _ _ _ _ _ _ _ _ _ _ _ (visited_start _ _) H). cbn beta iota in X. destruct X as (c & t0 & k & Hv & Hb & ->).
  assert (W0 : grown t0).
  { apply (visited_inv _ maxIteration maxNode _ grown (root_grown _ _ _ _ G_init)) with (2 := Hv). intros c' t1 t2 s' _ Hi Hb'. exact (proj1 (body_grown _ _ _ _ Hi Hb')). }
  destruct (body_grown _ _ _ _ W0 Hb) as (W & _ & _ & Hs). destruct (Hs k eq_refl) as (nd & Hn & Hi).
  destruct (path_grown _ _ _ t k nd W Hn) as (l & Hl & Hp).
  exists l, (tn_state nd). split; [exact Hl|]. split; [exact Hp|]. split; [exact (grown_all _ _ _ _ W _ _ Hn)|exact Hi].
Qed.

Hypothesis reflexive : forall a, G a -> eqv a a = true.
Lemma body_total it (t : T) : answers nearest -> grown t -> separate t -> exists t' s, body it t = Ok (t', s).
Proof.
  intros A W S. unfold body, rrt_body. destruct (nearest_node eqv E G init reflexive nearest it t (sample it) A W S) as (n & Hn & ->).
  cbn [bind]. unfold vget at 1. rewrite Hn. cbn [bind]. set (p := steer (tn_state n) (sample it)). destruct (valid p); cbn [negb]; [|eauto].
  unfold extend. destruct (find_state eqv t (final p)) as [k|] eqn:Ek; cbn [bind].
  - destruct (found_node eqv _ _ _ Ek) as (m & Hm & _). destruct (set_info_total t k m (Some p) Hm) as [t2 ->]. cbn [bind]. eauto.
  - match goal with |- context [set_info ?u ?k _] => destruct (set_info_total u k (TNode (final p) (Some (nearest it (states t) (sample it))) None) (Some p)) as [t2 ->] end.
    + rewrite nth_error_app2, Nat.sub_diag by lia. reflexivity.
    + cbn [bind]. eauto.
Qed.

Lemma any_terminates : answers nearest -> (0 <= maxIteration < max_int)%Z -> (0 <= maxNode)%Z ->
  exists b t s n, rrt_search eqv final steer valid issol sample nearest maxIteration maxNode init = Ok (b, t, s, n) /\ (0 <= n <= maxIteration + 1)%Z /\
    (Z.of_nat (length t) <= maxNode + 1)%Z /\ separate t.
Proof.
  intros A M1 M2.
  destruct (loop_budget body maxIteration maxNode (create_root None init) (fun t => grown t /\ separate t) M1 M2) with
    (fuel := S (S (Z.to_nat maxIteration))) (count := 0%Z) (t := @create_root V (option P) None init) as (b & t & s & n & H & W & Hn & Hl).
  - intros c t [W S]. destruct (body_total c t A W S) as (t' & s & Hb). exists t', s. split; [exact Hb|].
    destruct (body_grown _ _ _ _ W Hb) as (W' & S' & L & _). auto.
  - split; [now apply root_grown|apply root_separate].
  - lia.
  - lia.
  - cbn. lia.
  - exists b, t, s, n. split; [exact H|]. split; [exact Hn|]. split; [exact Hl|]. apply W.
Qed.
End Any.

(** RRT*, with any costs. *)
Section AnyStar.
Context {V P C : Type}.
Variable eqv : V -> V -> bool.
Variable final : P -> V.
Variable steer : V -> V -> P.
Variable valid : P -> bool.
Variable issol : V -> bool.
Variable sample : Z -> V.
Variable nearest : Z -> list V -> V -> nat.
Variables maxIteration maxNode : Z.
Variable connect : V -> V -> P.
Variable plength : P -> C.
Variable zero : C.
Variable add : C -> C -> C.
Variable ltb : C -> C -> bool.
Variable log : nat -> nat.
Variable knn : Z -> list V -> V -> nat -> list nat.
Variable init : V.
Variable G : V -> Prop.
Hypothesis G_ok : forall a it, G a -> valid (steer a (sample it)) = true -> G (final (steer a (sample it))).
Hypothesis G_init : G init.
Hypothesis reflexive : forall a, G a -> eqv a a = true.
Hypothesis A : answers nearest.
Hypothesis AA : answers_all knn.

Notation T := (tree V (@sinfo P C)).
Notation grown E := (grown (I := @sinfo P C) E G init).
Notation separate := (separate (I := @sinfo P C) eqv).
Notation is_goal := (is_goal eqv issol G).
Let body := star_body eqv final steer valid issol sample nearest connect plength zero add ltb log knn.
Let best := best_parent valid connect plength add ltb.

Lemma nodes_themselves E (t : T) : grown E t -> separate t -> forall idx, (forall i, In i idx -> (i < length t)%nat) -> get_nodes eqv t idx = Ok idx.
Proof.
  intros W S. induction idx as [|i r IH]; intros H; [reflexivity|]. cbn [get_nodes].
  destruct (nth_error t i) as [n|] eqn:En; [|apply nth_error_None in En; assert (i < length t)%nat by (apply H; left; reflexivity); lia].
  unfold vget. unfold states. rewrite nth_error_map, En. cbn [option_map bind]. rewrite IH by (intros j Hj; apply H; right; exact Hj). cbn [bind].
  rewrite (found_itself eqv E G init reflexive t i n W S En). reflexivity.
Qed.

(** The best candidate: none, or one whose connection the validator accepts. *)
Definition candidate_ok (t : T) (v : V) (b : option nat * option C * option P) : Prop :=
  match fst (fst b) with
  | None => snd (fst b) = None
  | Some k => snd (fst b) <> None /\ exists n, nth_error t k = Some n /\ valid (connect (tn_state n) v) = true
  end.
Lemma best_candidate (t : T) v : forall near b, (forall k, In k near -> (k < length t)%nat) -> candidate_ok t v b ->
  exists b', best t v near b = Ok b' /\ candidate_ok t v b' /\
    ((exists k n, In k near /\ nth_error t k = Some n /\ snd (tn_info n) <> None /\ valid (connect (tn_state n) v) = true) \/ fst (fst b) <> None -> fst (fst b') <> None).
Proof.
  unfold best. induction near as [|k r IH]; intros b L Hb.
  - exists b. split; [reflexivity|]. split; [exact Hb|]. intros [(k & n & [] & _)|X]; exact X.
  - cbn [best_parent]. unfold vget. destruct (nth_error t k) as [n|] eqn:En.
    2: { apply nth_error_None in En. assert (k < length t)%nat by (apply L; left; reflexivity). lia. }
    cbn [bind]. set (c := opt_add add (snd (tn_info n)) (plength (connect (tn_state n) v))).
    set (b1 := if opt_ltb ltb c (snd (fst b)) && valid (connect (tn_state n) v) then (Some k, c, Some (connect (tn_state n) v)) else b).
    assert (B1 : candidate_ok t v b1 /\ (fst (fst b) <> None \/ (snd (tn_info n) <> None /\ valid (connect (tn_state n) v) = true) -> fst (fst b1) <> None)).
    { unfold b1. destruct (opt_ltb ltb c (snd (fst b)) && valid (connect (tn_state n) v)) eqn:Ec.
      - apply andb_prop in Ec. destruct Ec as (E1 & E2). split; [|discriminate]. cbn. split; [destruct c; [discriminate|destruct (snd (fst b)); discriminate]|]. eauto.
      - split; [exact Hb|]. intros [X|[X1 X2]]; [exact X|]. rewrite X2, andb_true_r in Ec. unfold candidate_ok in Hb. destruct (fst (fst b)); [discriminate|].
        rewrite Hb in Ec. unfold c in Ec. destruct (snd (tn_info n)); [discriminate Ec|congruence]. }
    destruct B1 as [B1 B2]. destruct (IH b1 ltac:(intros j Hj; apply L; right; exact Hj) B1) as (b' & Eb & B3 & B4).
    exists b'. split; [exact Eb|]. split; [exact B3|]. intros [(k' & n' & [<-|Hk] & Hn' & X)|X].
    + apply B4. right. apply B2. right. congruence.
    + apply B4. left. exists k', n'. auto.
    + apply B4. right. apply B2. left. exact X.
Qed.

(** [E] holds of the edges if it holds of accepted connections, and of the edge that is used when no candidate is accepted. *)
Lemma star_body_any (E : V -> V -> Prop) it (t : T) : (forall a b, G a -> G b -> valid (connect a b) = true -> E a b) ->
  grown E t -> separate t ->
  (forall n, nth_error t (nearest it (states t) (sample it)) = Some n -> valid (steer (tn_state n) (sample it)) = true -> let v := final (steer (tn_state n) (sample it)) in
     (exists k m, In k (knn it (states t) v (Nat.max 1 (log (length t)))) /\ nth_error t k = Some m /\ snd (tn_info m) <> None /\ valid (connect (tn_state m) v) = true) \/
     (forall a, G a -> E a v)) ->
  exists t' s, body it t = Ok (t', s) /\ grown E t' /\ separate t' /\ (length t' <= S (length t))%nat /\
    (forall k, s = Some k -> exists n, nth_error t' k = Some n /\ is_goal (tn_state n)) /\
    ((forall k n, nth_error t k = Some n -> snd (tn_info n) <> None) ->
     (forall n, nth_error t (nearest it (states t) (sample it)) = Some n -> valid (steer (tn_state n) (sample it)) = true -> let v := final (steer (tn_state n) (sample it)) in
       exists k m, In k (knn it (states t) v (Nat.max 1 (log (length t)))) /\ nth_error t k = Some m /\ valid (connect (tn_state m) v) = true) ->
     forall k n, nth_error t' k = Some n -> snd (tn_info n) <> None).
Proof.
  intros Ec W S Cov. unfold body, star_body.
  destruct (nearest_node eqv E G init reflexive nearest it t (sample it) A W S) as (n & Hn & ->).
  cbn [bind]. unfold vget at 1. rewrite Hn. cbn [bind]. set (p := steer (tn_state n) (sample it)). set (v := final p).
  destruct (valid p) eqn:Ev; cbn [negb].
  2: { exists t, None. split; [reflexivity|]. split; [exact W|]. split; [exact S|]. split; [lia|]. split; [discriminate|auto]. }
  pose proof (G_ok (tn_state n) it (grown_all _ _ _ _ W _ _ Hn) Ev) as Gv. specialize (Cov n Hn Ev). fold p in Gv, Cov. cbv zeta in Cov. fold v in Gv, Cov.
  assert (Lk : forall k, In k (knn it (states t) v (Nat.max 1 (log (length t)))) -> (k < length t)%nat).
  { intros k Hk. pose proof (AA _ _ _ _ _ Hk) as X. unfold states in X. rewrite map_length in X. exact X. }
  rewrite (nodes_themselves E t W S _ Lk). cbn [bind]. set (near := knn _ _ _ _) in *.
  destruct (best_candidate t v near (None, None, None) Lk eq_refl) as ([[ob oc] op] & Eb & B1 & B2). unfold best in Eb. rewrite Eb. cbn [bind fst snd].
  unfold candidate_ok in B1. cbn [fst snd] in B1, B2.
  assert (Src : find_state eqv t v = None -> exists src nd, nth_error t src = Some nd /\ E (tn_state nd) v /\
    extend (I := @sinfo P C) eqv (None, Some zero) nearest it t v ob = Ok (t ++ [TNode v (Some src) (None, Some zero)], Some (length t))).
  { intros F. unfold extend. rewrite F. destruct ob as [kb|].
    - destruct B1 as (_ & nb & Hnb & Vb). exists kb, nb. split; [exact Hnb|]. split; [apply Ec; auto; exact (grown_all _ _ _ _ W _ _ Hnb)|reflexivity].
    - destruct (nearest_node eqv E G init reflexive nearest it t v A W S) as (m & Hm & ->). cbn [bind]. exists (nearest it (states t) v), m. split; [exact Hm|].
      split; [|reflexivity]. destruct Cov as [Cov|Cov]; [|apply Cov; exact (grown_all _ _ _ _ W _ _ Hm)]. exfalso. now apply B2; [left|]. }
  assert (Fin : forall t1 k m, grown E t1 -> separate t1 -> (length t1 <= Datatypes.S (length t))%nat -> nth_error t1 k = Some m -> (issol v = true -> is_goal (tn_state m)) ->
    (forall j q, nth_error t1 j = Some q -> j <> k -> nth_error t j = Some q) ->
    exists t' s, (do t2 <- set_info (I := @sinfo P C) t1 k (op, oc); Ok (t2, if issol v then Some k else None)) = Ok (t', s) /\ grown E t' /\ separate t' /\ (length t' <= Datatypes.S (length t))%nat /\
    (forall k, s = Some k -> exists n, nth_error t' k = Some n /\ is_goal (tn_state n)) /\
    ((forall k n, nth_error t k = Some n -> snd (tn_info n) <> None) -> oc <> None -> forall k n, nth_error t' k = Some n -> snd (tn_info n) <> None)).
  { intros t1 k m W1 S1 L1 Hm Hi Old. destruct (set_info_total t1 k m (op, oc) Hm) as [t2 Es]. rewrite Es. cbn [bind]. eexists t2, _. split; [reflexivity|].
    split; [exact (info_grown _ _ _ _ _ _ _ W1 Es)|]. split; [exact (info_separate _ _ _ _ _ S1 Es)|].
    destruct (set_info_spec _ _ _ _ Es) as (n1 & Hn1 & L2 & X). split; [lia|]. assert (n1 = m) by congruence. subst n1. split.
    - intros k' Hk. destruct (issol v); [|discriminate]. injection Hk as <-. eexists. rewrite X, Nat.eqb_refl. split; [reflexivity|]. cbn. auto.
    - intros Ho Hc j q Hq. rewrite X in Hq. destruct (Nat.eqb_spec j k) as [->|Nj]; [injection Hq as <-; exact Hc|]. apply Ho with j. auto. }
  assert (Oc : (forall k n, nth_error t k = Some n -> snd (tn_info n) <> None) ->
     (forall n, nth_error t (nearest it (states t) (sample it)) = Some n -> valid (steer (tn_state n) (sample it)) = true -> let v := final (steer (tn_state n) (sample it)) in
       exists k m, In k (knn it (states t) v (Nat.max 1 (log (length t)))) /\ nth_error t k = Some m /\ valid (connect (tn_state m) v) = true) -> oc <> None).
  { intros Ho Hc. destruct (Hc n Hn Ev) as (k & m & Ik & Hm & Vm). fold p in Ik, Vm. fold v near in Ik, Vm.
    assert (Nb : ob <> None) by (apply B2; left; exists k, m; eauto). destruct ob as [kb|]; [exact (proj1 B1)|congruence]. }
  destruct (find_state eqv t v) as [k|] eqn:Ek.
  - unfold extend. rewrite Ek. cbn [bind]. destruct (found_node eqv _ _ _ Ek) as (m & Hm & Hq).
    destruct (Fin t k m W S ltac:(lia) Hm) as (t' & s & R1 & R2 & R3 & R4 & R5 & R6); [intros Hi; exists v; auto|auto|].
    exists t', s. repeat (split; [assumption|]). intros Ho Hc. apply R6; [exact Ho|]. apply Oc; [exact Ho|]. intros n0 Hn0. rewrite Hn in Hn0. exact (Hc n0 Hn0).
  - destruct (Src eq_refl) as (src & nd & Hnd & He & ->). cbn [bind].
    destruct (Fin (t ++ [TNode v (Some src) (None, Some zero)]) (length t) (TNode v (Some src) (None, Some zero))) as (t' & s & R1 & R2 & R3 & R4 & R5 & R6).
    + now apply append_grown with nd.
    + now apply append_separate.
    + rewrite app_length. cbn [length]. lia.
    + rewrite nth_error_app2, Nat.sub_diag by lia. reflexivity.
    + intros Hi. exists v. auto.
    + intros j q Hq Nj. destruct (appended _ _ _ _ Hq) as [Hq'|[X _]]; [exact Hq'|congruence].
    + exists t', s. repeat (split; [assumption|]). intros Ho Hc. apply R6; [exact Ho|]. apply Oc; [exact Ho|]. intros n0 Hn0. rewrite Hn in Hn0. exact (Hc n0 Hn0).
Qed.

Notation search := (star_search eqv final steer valid issol sample nearest maxIteration maxNode connect plength zero add ltb log knn init).
Let anyedge : V -> V -> Prop := fun _ _ => True.
Notation start := (create_root (I := @sinfo P C) (None, Some zero) init).

Lemma star_any_body it (t : T) : grown anyedge t -> separate t ->
  exists t' s, body it t = Ok (t', s) /\ grown anyedge t' /\ separate t' /\ (length t' <= S (length t))%nat /\ (forall k, s = Some k -> exists n, nth_error t' k = Some n /\ is_goal (tn_state n)).
Proof.
  intros W S. destruct (star_body_any anyedge it t) as (t' & s & R1 & R2 & R3 & R4 & R5 & _); auto.
  - intros a b _ _ _. exact Logic.I.
  - intros n _ _ v. right. intros a _. exact Logic.I.
  - exists t', s. auto.
Qed.

Lemma star_any_terminates : (0 <= maxIteration < max_int)%Z -> (0 <= maxNode)%Z ->
  exists b t s n, search = Ok (b, t, s, n) /\ (0 <= n <= maxIteration + 1)%Z /\ (Z.of_nat (length t) <= maxNode + 1)%Z /\ separate t.
Proof.
  intros M1 M2.
  destruct (loop_budget body maxIteration maxNode start (fun t => grown anyedge t /\ separate t) M1 M2) with
    (fuel := S (S (Z.to_nat maxIteration))) (count := 0%Z) (t := start) as (b & t & s & n & H & W & Hn & Hl).
  - intros c t [W S]. destruct (star_any_body c t W S) as (t' & s & Hb & W' & S' & L & _). exists t', s. auto.
  - split; [now apply root_grown|apply root_separate].
  - lia.
  - lia.
  - cbn. lia.
  - exists b, t, s, n. split; [exact H|]. split; [exact Hn|]. split; [exact Hl|]. apply W.
Qed.

Lemma star_any_ends t s n : search = Ok (true, t, s, n) ->
  exists l g, get_path t s = Ok l /\ nth_error l 0 = Some init /\ nth_error l (length l - 1) = Some g /\ G g /\ is_goal g.
Proof.
  intros H. assert (X := loop_visited _ _ _ _ _ _ _ _ _ _ _ (visited_start _ _) H). cbn beta iota in X. destruct X as (c & t0 & k & Hv & Hb & ->).
  assert (W0 : grown anyedge t0 /\ separate t0).
  { apply (visited_inv _ maxIteration maxNode _ (fun t => grown anyedge t /\ separate t) (conj (root_grown _ _ _ _ G_init) (root_separate _ _ _))) with (2 := Hv).
    intros c' t1 t2 s' _ [Hi Hj] Hb'. destruct (star_any_body c' t1 Hi Hj) as (t3 & s3 & E3 & W3 & S3 & _). unfold body in E3. rewrite Hb' in E3. injection E3 as <- <-. auto. }
  destruct W0 as [W0 S0]. destruct (star_any_body c t0 W0 S0) as (t3 & s3 & E3 & W3 & _ & _ & Hs). unfold body in E3.
  assert (X : Ok (t, Some k) = Ok (t3, s3)) by (rewrite <- E3; symmetry; exact Hb). injection X as <- <-.
  destruct (Hs k eq_refl) as (nd & Hn & Hi). destruct (path_grown _ _ _ t k nd W3 Hn) as (l & Hl & P1 & P2 & _). exists l, (tn_state nd).
  repeat (split; [assumption|]). split; [exact (grown_all _ _ _ _ W3 _ _ Hn)|exact Hi].
Qed.

Let vconn : V -> V -> Prop := fun a b => valid (connect a b) = true.
Lemma star_any_success t s n : some_candidate final steer valid sample nearest connect log knn G -> search = Ok (true, t, s, n) ->
  exists l g, get_path t s = Ok l /\ path_between vconn init g l /\ G g /\ is_goal g.
Proof.
  intros Cov H. assert (X := loop_visited _ _ _ _ _ _ _ _ _ _ _ (visited_start _ _) H). cbn beta iota in X. destruct X as (c & t0 & k & Hv & Hb & ->).
  set (Inv := fun t : T => grown vconn t /\ separate t /\ forall k n, nth_error t k = Some n -> snd (tn_info n) <> None).
  assert (Step : forall it t1 t2 s2, Inv t1 -> body it t1 = Ok (t2, s2) -> Inv t2 /\ forall k, s2 = Some k -> exists n, nth_error t2 k = Some n /\ is_goal (tn_state n)).
  { intros it t1 t2 s2 (W & S & K) Hb'.
    assert (Cv : forall n, nth_error t1 (nearest it (states t1) (sample it)) = Some n -> valid (steer (tn_state n) (sample it)) = true -> let v := final (steer (tn_state n) (sample it)) in
       exists k m, In k (knn it (states t1) v (Nat.max 1 (log (length t1)))) /\ nth_error t1 k = Some m /\ valid (connect (tn_state m) v) = true).
    { intros m Hm Vm v. assert (Hs : nth_error (states t1) (nearest it (states t1) (sample it)) = Some (tn_state m)) by (unfold states at 1; rewrite nth_error_map, Hm; reflexivity).
      destruct (Cov it (states t1) (tn_state m)) as (i & b & Ii & Hb1 & Vb); auto.
      - intros x Hx. apply in_map_iff in Hx. destruct Hx as (q & <- & Iq). apply In_nth_error in Iq. destruct Iq as [j Hj]. exact (grown_all _ _ _ _ W _ _ Hj).
      - unfold states in Hb1. rewrite nth_error_map in Hb1. destruct (nth_error t1 i) as [q|] eqn:Eq; [|discriminate]. injection Hb1 as <-. exists i, q.
        unfold states in Ii at 2. rewrite map_length in Ii. auto. }
    destruct (star_body_any vconn it t1) as (t3 & s3 & E3 & W3 & S3 & _ & Hs & K3); auto.
    - intros m Hm Vm v. left. destruct (Cv m Hm Vm) as (k' & q & I1 & I2 & I3). exists k', q. repeat (split; [assumption|]). split; [exact (K _ _ I2)|exact I3].
    - rewrite Hb' in E3. injection E3 as <- <-. split; [|exact Hs]. split; [exact W3|]. split; [exact S3|]. exact (K3 K Cv). }
  assert (I0 : Inv t0).
  { apply (visited_inv body maxIteration maxNode start Inv) with (3 := Hv).
    - split; [now apply root_grown|]. split; [apply root_separate|]. intros [|j] q Hq; [injection Hq as <-; discriminate|destruct j; discriminate].
    - intros c' t1 t2 s' _ Hi Hb'. exact (proj1 (Step _ _ _ _ Hi Hb')). }
  destruct (Step _ _ _ _ I0 Hb) as ((W & _) & Hs). destruct (Hs k eq_refl) as (nd & Hn & Hi). destruct (path_grown _ _ _ t k nd W Hn) as (l & Hl & Hp).
  exists l, (tn_state nd). split; [exact Hl|]. split; [exact Hp|]. split; [exact (grown_all _ _ _ _ W _ _ Hn)|exact Hi].
Qed.
End AnyStar.

Lemma separate_different {V I} (eqv : V -> V -> bool) (t : tree V I) : separate eqv t -> all_different eqv (states t).
Proof.
  intros S i j a b L Ha Hb. unfold states in Ha, Hb. rewrite nth_error_map in Ha, Hb.
  destruct (nth_error t i) as [n|] eqn:Ei; [|discriminate]. destruct (nth_error t j) as [m|] eqn:Ej; [|discriminate]. injection Ha as <-. injection Hb as <-.
  exact (S _ _ _ _ L Ei Ej).
Qed.
