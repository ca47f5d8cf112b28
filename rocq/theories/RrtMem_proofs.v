From Coq Require Import ZArith.
From Verif Require Import Base Frontier_spec Node_model Node_spec Node_proofs TreeMem_model TreeMem_spec TreeMem_proofs Rrt_model Rrt_spec Rrt_proofs RrtMem_model RrtMem_spec.

(** The tree in memory, whose nodes have consecutive addresses from [b], is the tree of Rrt_model.v. *)
Record rel {V I} (eqv : V -> V -> bool) (b : nat) (a : tree V I) (m : pmem V I) : Prop := {
  r_coh : coherent eqv (p_tree m);
  r_alive : t_alive (p_tree m) = seq b (length a);
  r_size : h_size (t_heap (p_tree m)) = b + length a;
  r_nodes : forall k n, nth_error a k = Some n ->
    t_state (p_tree m) (b + k) = Some (tn_state n) /\ h_parent (t_heap (p_tree m)) (b + k) = option_map (Nat.add b) (tn_parent n) /\
    p_info m (b + k) = tn_info n
}.

Lemma nth_states {V I} (t : tree V I) k v : nth_error (states t) k = Some v -> exists n, nth_error t k = Some n /\ tn_state n = v.
Proof.
  unfold states. rewrite nth_error_map. destruct (nth_error t k) as [n|]; [|discriminate]. cbn. intros E. injection E as <-. eauto.
Qed.

Section Sim.
Context {V I : Type} (eqv : V -> V -> bool) (info0 : I).
Hypothesis He : equivalence V eqv.
Notation rel := (rel eqv).

Lemma nth_seq b len i n : nth_error (seq b len) i = Some n -> n = b + i /\ i < len.
Proof.
  intros H. assert (L : i < len) by (rewrite <- (seq_length len b); apply nth_error_Some; congruence). split; auto.
  apply nth_error_nth with (d := 0) in H. rewrite seq_nth in H by auto. auto.
Qed.
Lemma rel_alive b (a : tree V I) m k : rel b a m -> k < length a -> In (b + k) (t_alive (p_tree m)).
Proof. intros R H. rewrite (r_alive _ _ _ _ R). apply in_seq. lia. Qed.
Lemma rel_lives b (a : tree V I) m k : rel b a m -> k < length a -> p_lives m (b + k) = true.
Proof. intros R H. apply existsb_In. eapply rel_alive; eauto. Qed.
Lemma rel_node b (a : tree V I) m k n : rel b a m -> nth_error a k = Some n -> node_at (p_tree m) (b + k) (tn_state n).
Proof. intros R H. split; [apply (rel_alive b a m k R); apply nth_error_Some; congruence|]. now apply (r_nodes _ _ _ _ R). Qed.
Lemma rel_inv b (a : tree V I) m x : rel b a m -> In x (t_alive (p_tree m)) -> exists k n, x = b + k /\ nth_error a k = Some n.
Proof.
  intros R. rewrite (r_alive _ _ _ _ R), in_seq. intros H. assert (L : x - b < length a) by lia. apply nth_error_Some in L.
  destruct (nth_error a (x - b)) as [n|] eqn:E; [|congruence]. exists (x - b), n. split; auto. lia.
Qed.
Lemma rel_states b (a : tree V I) m : rel b a m -> forall vs, Forall2 (node_at (p_tree m)) (t_alive (p_tree m)) vs -> vs = states a.
Proof.
  intros R vs F. apply list_ext. intros j. pose proof (F2_len _ _ _ F) as L. rewrite (r_alive _ _ _ _ R), seq_length in L.
  unfold states. rewrite nth_error_map. destruct (nth_error vs j) as [v|] eqn:E.
  - destruct (F2_nth _ _ _ _ _ F E) as (x & Ex & [_ Hx]). rewrite (r_alive _ _ _ _ R) in Ex. apply nth_seq in Ex. destruct Ex as [-> Lj].
    apply nth_error_Some in Lj. destruct (nth_error a j) as [n|] eqn:En; [|congruence]. cbn. destruct (r_nodes _ _ _ _ R j n En) as [E1 _]. congruence.
  - apply nth_error_None in E. assert (E' : nth_error a j = None) by (apply nth_error_None; lia). now rewrite E'.
Qed.
Lemma rel_root b (a : tree V I) m : rel b a m -> a <> [] -> t_root (p_tree m) <> None.
Proof.
  intros R H N. pose proof (co_none _ _ (r_coh _ _ _ _ R) N) as E. rewrite (r_alive _ _ _ _ R) in E. destruct a; [auto|discriminate].
Qed.
Lemma rel_parent b (a : tree V I) m k n p : rel b a m -> nth_error a k = Some n -> tn_parent n = Some p -> p < length a.
Proof.
  intros R H Hp. destruct (r_nodes _ _ _ _ R k n H) as (_ & E & _). rewrite Hp in E. cbn in E. pose proof (r_coh _ _ _ _ R) as C.
  destruct (root_alive eqv (p_tree m) (b + k) C) as (r & Er & Ho); [eapply rel_node; eauto|].
  destruct (co_root _ _ C r Er) as (_ & Hr & Hal). pose proof (co_forest _ _ C) as F. inversion Ho as [|q ? Ho' Hi]; subst; [congruence|].
  apply (fo_links _ F) in Hi. assert (q = b + p) by congruence. subst q. apply Hal in Ho'. rewrite (r_alive _ _ _ _ R) in Ho'. apply in_seq in Ho'. lia.
Qed.

Lemma find_sound (a : tree V I) v : forall k j, find_from eqv k a v = Some j -> k <= j /\ exists n, nth_error a (j - k) = Some n /\ eqv (tn_state n) v = true.
Proof.
  induction a as [|x a IH]; intros k j; cbn [find_from]; [discriminate|]. destruct (eqv (tn_state x) v) eqn:E.
  - intros H. injection H as <-. split; auto. exists x. rewrite Nat.sub_diag. auto.
  - intros H. destruct (IH (S k) j H) as (L & n & Hn & Hv). split; [lia|]. exists n. replace (j - k) with (S (j - S k)) by lia. auto.
Qed.
Lemma find_missing (a : tree V I) v : forall k, find_from eqv k a v = None -> forall i n, nth_error a i = Some n -> eqv (tn_state n) v = false.
Proof.
  induction a as [|x a IH]; intros k; cbn [find_from]; [intros _ [|i]; discriminate|]. destruct (eqv (tn_state x) v) eqn:E; [discriminate|].
  intros H [|i] n; cbn; [intros G; now injection G as <-|]. eapply IH; eauto.
Qed.
Lemma rel_find b (a : tree V I) m v : rel b a m -> m_find eqv (t_map (p_tree m)) v = option_map (fun k => Some (b + k)) (find_state eqv a v) /\
  forall k, find_state eqv a v = Some k -> k < length a.
Proof.
  intros R. pose proof (r_coh _ _ _ _ R) as C. destruct (find_state eqv a v) as [k|] eqn:E; cbn.
  - destruct (find_sound a v 0 k E) as (_ & n & Hn & Hv). rewrite Nat.sub_0_r in Hn. split.
    + apply (find_node eqv He (p_tree m) _ (tn_state n) v C); auto. eapply rel_node; eauto.
    + intros k' Ek. injection Ek as <-. apply nth_error_Some. congruence.
  - split; [|discriminate]. destruct (m_find eqv (t_map (p_tree m)) v) as [o|] eqn:Eo; auto.
    destruct (find_map eqv (p_tree m) v o C Eo) as (x & w & _ & [Hx Hw] & Hv). destruct (rel_inv b a m x R Hx) as (k & n & -> & Hn).
    destruct (r_nodes _ _ _ _ R k n Hn) as (E1 & _). rewrite Hw in E1. injection E1 as ->. rewrite (find_missing a v 0 E k n Hn) in Hv. discriminate.
Qed.
Lemma find_own b (a : tree V I) m k n : rel b a m -> nth_error a k = Some n -> find_state eqv a (tn_state n) = Some k.
Proof.
  intros R Hn. destruct (rel_find b a m (tn_state n) R) as [E L]. pose proof (r_coh _ _ _ _ R) as C.
  rewrite (find_node eqv He (p_tree m) (b + k) (tn_state n) (tn_state n) C) in E; [|eapply rel_node; eauto|apply (eqk_refl _ _ He)].
  destruct (find_state eqv a (tn_state n)) as [j|]; cbn in E; [|discriminate]. injection E as E. f_equal. lia.
Qed.

Lemma nearest_sim (nearest : Z -> list V -> V -> nat) b (a : tree V I) m it q : answers nearest -> rel b a m -> a <> [] ->
  exists k n, get_nearest_node eqv nearest it a q = Ok (Some k) /\ nth_error a k = Some n /\
    t_nearest eqv (nearest it) (p_tree m) q = Ok (p_tree m, Some (b + k)) /\ p_nearest eqv (nearest it) m q = Ok (m, Some (b + k)).
Proof.
  intros An R Ha. assert (Hk : knn_in_range (nearest it) (fun _ _ _ => [])) by (split; [intros vs v Hv; now apply An|easy]).
  destruct (nearest_ok eqv (nearest it) _ He Hk (p_tree m) q (r_coh _ _ _ _ R) (rel_root b a m R Ha)) as (vs & x & v & F & E & Hx & Hv).
  pose proof (rel_states b a m R vs F) as ->. destruct (nth_states a _ v Hv) as (n & Hn & <-). set (k := nearest it (states a) q) in *.
  assert (Ex : x = b + k).
  { destruct (rel_inv b a m x R (proj1 Hx)) as (k' & n' & -> & Hn'). f_equal. pose proof (rel_node b a m k n R Hn) as G.
    assert (b + k' = b + k); [|lia]. destruct Hx as [A1 A2], G as [B1 B2].
    apply (co_apart _ _ (r_coh _ _ _ _ R) (b + k') (b + k) (tn_state n) (tn_state n)); auto. apply (eqk_refl _ _ He). }
  subst x. exists k, n. split; [|split; [|split]]; auto.
  - unfold get_nearest_node, vget. fold k. rewrite Hv. cbn [bind]. now rewrite (find_own b a m k n).
  - unfold p_nearest. rewrite E. cbn [bind]. now destruct m.
Qed.

Lemma extend_addr knn1 (t t' : tmem V) target source n : t_extend eqv knn1 t target source = Ok (t', Some n) -> coherent eqv t -> ~ In n (t_alive t) ->
  n = h_size (t_heap t) /\ h_size (t_heap t') = S n.
Proof.
  unfold t_extend. intros H C Hn. destruct (m_find eqv (t_map t) target) as [o|] eqn:E.
  - injection H as -> ->. destruct (find_map eqv t' target _ C E) as (x & w & Ex & [Hx _] & _). injection Ex as ->. contradiction.
  - assert (G : forall t1 s, t_heap t1 = t_heap t -> (do b <- t_belongs t1 s; if negb b then Throw else let (h, n) := new_node (t_heap t1) in
        Ok (TMem (add_child h s n) (upd (t_state t1) n (Some target)) (t_alive t1 ++ [n]) (t_root t1)
              (m_insert eqv (t_map t1) target (Some n)) (t_points t1 ++ [n]), Some n)) = Ok (t', Some n) -> n = h_size (t_heap t) /\ h_size (t_heap t') = S n).
    { intros t1 s Eh. destruct (t_belongs t1 s) as [b| | |]; cbn [bind]; try discriminate. destruct (negb b); [discriminate|]. cbn [new_node].
      intros G. assert (E1 : Some (h_size (t_heap t1)) = Some n) by congruence. injection E1 as <-. rewrite Eh in *. split; auto. injection G as <-. reflexivity. }
    destruct source as [s|]; cbn [bind] in H; [eapply G; eauto|].
    destruct (t_nearest eqv knn1 t target) as [[t1 o]| | |] eqn:En; cbn [bind] in H; try discriminate. destruct o as [s|]; [|congruence]. apply (G t1 s); auto.
    clear H. unfold t_nearest in En. destruct (t_points t) eqn:Ep; [discriminate|]. destruct (t_reads t _) as [vs| | |]; cbn [bind] in En; try discriminate.
    destruct (vget vs _) as [pt| | |]; cbn [bind] in En; try discriminate. injection En as En. unfold t_at in En.
    destruct (m_find eqv (t_map t) pt); injection En as <-; auto.
Qed.

Lemma extend_sim (nearest : Z -> list V -> V -> nat) b (a : tree V I) m it v source : answers nearest -> rel b a m -> a <> [] ->
  (forall s, source = Some s -> s < length a) ->
  exists a' k m', extend eqv info0 nearest it a v source = Ok (a', Some k) /\
    p_extend eqv info0 (nearest it) m v (option_map (Nat.add b) source) = Ok (m', Some (b + k)) /\ rel b a' m' /\ a' <> [] /\ k < length a' /\
    p_solution m' = p_solution m.
Proof.
  intros An R Ha Hs. assert (Hk : knn_in_range (nearest it) (fun _ _ _ => [])) by (split; [intros vs w Hv; now apply An|easy]).
  pose proof (r_coh _ _ _ _ R) as C. destruct (rel_find b a m v R) as [Ef Lf].
  assert (Al : tallowed (p_tree m) (OExtend v (option_map (Nat.add b) source))).
  { destruct source as [s|]; cbn; [apply (rel_alive b a m s R); auto|eapply rel_root; eauto]. }
  destruct (extend_ok eqv (nearest it) _ He Hk (p_tree m) v _ C Al) as (t' & x & Et & C' & D).
  unfold extend, p_extend. rewrite Et. cbn [bind].
  destruct (find_state eqv a v) as [k|] eqn:Ea; cbn [option_map] in Ef.
  - unfold t_extend in Et. rewrite Ef in Et. injection Et as <- <-. exists a, k. eexists. split; [reflexivity|]. split; [reflexivity|].
    specialize (Lf k eq_refl). rewrite (rel_lives b a m k R Lf). split; [destruct m; exact R|]. auto.
  - destruct D as [(w & [Hx Hw] & Hv & _)|(D1 & D2 & D3 & D4 & D5 & D6 & s' & S1 & S2 & S3)].
    { exfalso. rewrite (find_node eqv He (p_tree m) x w v C (conj Hx Hw) Hv) in Ef. discriminate. }
    destruct (extend_addr _ _ _ _ _ _ Et C D3) as [Ex Es]. rewrite (r_size _ _ _ _ R) in Ex. subst x.
    assert (Hsrc : exists s, (match source with Some s => Ok (Some s) | None => get_nearest_node eqv nearest it a v end) = Ok (Some s) /\ s' = b + s).
    { destruct source as [s|]; [exists s; auto|]. destruct (nearest_sim nearest b a m it v An R Ha) as (k & n & E1 & _ & E2 & _). exists k. split; auto.
      cbn [option_map] in S3. congruence. }
    destruct Hsrc as (s & -> & ->). cbn [bind]. exists (a ++ [TNode v (Some s) info0]), (length a). eexists. split; [reflexivity|]. split; [reflexivity|].
    assert (Nl : p_lives m (b + length a) = false).
    { destruct (p_lives m (b + length a)) eqn:El; auto. apply existsb_In in El. contradiction. }
    rewrite Nl. split; [|split; [destruct a; discriminate|split; [rewrite app_length; cbn; lia|reflexivity]]].
    split; cbn [p_tree p_info]; auto.
    + rewrite D2, (r_alive _ _ _ _ R), app_length. cbn [length]. rewrite seq_app. reflexivity.
    + rewrite Es, app_length. cbn. lia.
    + intros k n Hn. destruct (lt_dec k (length a)) as [Lk|Lk].
      * rewrite nth_error_app1 in Hn by auto. destruct (r_nodes _ _ _ _ R k n Hn) as (A1 & A2 & A3).
        destruct (D6 (b + k) (tn_state n)) as [[_ B1] B2]; [eapply rel_node; eauto|]. rewrite B1, B2. split; auto. split; auto.
        rewrite upd_other; auto. lia.
      * rewrite nth_error_app2 in Hn by lia. destruct (k - length a) as [|j] eqn:Ek; [|destruct j; discriminate]. cbn in Hn. injection Hn as <-.
        replace k with (length a) by lia. cbn. split; [exact D4|]. split; [exact S2|apply upd_same].
Qed.

Lemma set_info_sim b (a : tree V I) m k i : rel b a m -> k < length a -> exists a' m', set_info a k i = Ok a' /\ p_set_info m (b + k) i = Ok m' /\ rel b a' m' /\
  length a' = length a /\ p_solution m' = p_solution m.
Proof.
  intros R Hk. pose proof Hk as Hk'. apply nth_error_Some in Hk'. destruct (nth_error a k) as [n|] eqn:En; [|congruence].
  destruct (set_info_total a k n i En) as [a' E]. destruct (set_info_spec a a' k i E) as (n' & En' & L & X). assert (n' = n) by congruence. subst n'.
  exists a'. eexists. split; [exact E|]. unfold p_set_info. rewrite (rel_lives b a m k R Hk). split; [reflexivity|]. split; [|auto].
  split; cbn [p_tree p_info]; try apply R.
  - rewrite L. apply R.
  - rewrite L. apply R.
  - intros j nd. rewrite X. destruct (Nat.eqb_spec j k) as [->|Nj].
    + intros G. injection G as <-. cbn. destruct (r_nodes _ _ _ _ R k n En) as (A1 & A2 & _). split; auto. split; auto. apply upd_same.
    + intros Hj. destruct (r_nodes _ _ _ _ R j nd Hj) as (A1 & A2 & A3). split; auto. split; auto. rewrite upd_other; auto. lia.
Qed.

Lemma start_sim (m : pmem V I) init : coherent eqv (p_tree m) -> exists m0 b, p_start eqv info0 m init = Ok m0 /\ rel b (create_root info0 init) m0 /\ p_solution m0 = None.
Proof.
  intros C. destruct (clear_ok eqv (p_tree m) C) as (t & E & Ct & _ & Hr & _). destruct (create_ok eqv t init Ct Hr) as (t' & n & E' & C' & A1 & A2 & A3 & A4).
  unfold p_start. rewrite E. cbn [bind]. rewrite E'. cbn [bind]. eexists _, n. split; [reflexivity|]. split; [|reflexivity].
  split; cbn [p_tree p_info]; auto.
  - unfold t_create in E'. destruct (t_destroy t (t_root t)); cbn in E'; try discriminate. injection E' as <- <-. cbn. lia.
  - intros [|k] nd; cbn; [|destruct k; discriminate]. intros G. injection G as <-. rewrite Nat.add_0_r. cbn. split; auto. split; [|apply upd_same].
    now apply (co_root _ _ C' n A2).
Qed.

(** The loop. *)
Section Loop.
Variables (maxIteration maxNode : Z) (body : Z -> tree V I -> res (tree V I * option nat)) (pbody : Z -> pmem V I -> res (pmem V I * option nat)) (b : nat).
Hypothesis Hbody : forall it a m, rel b a m -> a <> [] -> exists a' o m', body it a = Ok (a', o) /\ pbody it m = Ok (m', option_map (Nat.add b) o) /\
  rel b a' m' /\ a' <> [] /\ (forall k, o = Some k -> k < length a') /\ p_solution m' = p_solution m.

Lemma rel_t_size (a : tree V I) m : rel b a m -> t_size (p_tree m) = length a.
Proof. intros R. unfold t_size. rewrite (co_size _ _ (r_coh _ _ _ _ R)), (r_alive _ _ _ _ R). apply seq_length. Qed.

Lemma loop_sim fuel : forall count a m, rel b a m -> a <> [] -> p_solution m = None ->
  match search_loop maxIteration maxNode body fuel count a with
  | Ok (s, a', sol, c) => exists m', p_loop maxIteration maxNode pbody fuel count m = Ok (s, m', c) /\ rel b a' m' /\ p_solution m' = option_map (Nat.add b) sol /\
      forall k, sol = Some k -> k < length a'
  | UB => p_loop maxIteration maxNode pbody fuel count m = UB
  | Throw => False
  | NoFuel => p_loop maxIteration maxNode pbody fuel count m = NoFuel
  end.
Proof.
  induction fuel as [|f IH]; intros count a m R Ha Hs; cbn [search_loop p_loop]; auto.
  destruct (max_int <? count)%Z; auto. rewrite (rel_t_size a m R).
  destruct (maxIteration <? count)%Z; [exists m; split; auto; split; auto; split; [exact Hs|discriminate]|].
  destruct (maxNode <? Z.of_nat (length a))%Z; [exists m; split; auto; split; auto; split; [exact Hs|discriminate]|].
  destruct (Hbody count a m R Ha) as (a' & o & m' & E & E' & R' & Ha' & Ho & Hs'). rewrite E, E'. cbn [bind]. destruct o as [k|]; cbn [option_map].
  - eexists. split; [reflexivity|]. split; [|cbn; split; auto]. destruct R' as [R1 R2 R3 R4]. split; auto.
  - apply IH; auto. congruence.
Qed.
End Loop.

(** The path. *)
Lemma depth_sim b (a : tree V I) m : rel b a m -> forall x d, ancestors (t_heap (p_tree m)) x d -> forall k n fuel, x = b + k -> nth_error a k = Some n -> d < fuel -> depth fuel a k = Ok d.
Proof.
  intros R x d H. induction H as [x Hx|x p d Hx Hp IH]; intros k n fuel -> Hn Hd; destruct fuel as [|f]; try lia; cbn [depth]; unfold vget; rewrite Hn; cbn [bind];
    destruct (r_nodes _ _ _ _ R k n Hn) as (_ & E & _); rewrite Hx in E; destruct (tn_parent n) as [q|] eqn:Eq; cbn in E; try discriminate; auto.
  injection E as ->. pose proof (rel_parent b a m k n q R Hn Eq) as L. apply nth_error_Some in L. destruct (nth_error a q) as [nq|] eqn:En; [|congruence].
  rewrite (IH q nq f eq_refl En) by lia. reflexivity.
Qed.
Lemma depth_bound b (a : tree V I) m k d : rel b a m -> k < length a -> ancestors (t_heap (p_tree m)) (b + k) d -> d < length a.
Proof.
  intros R Hk Hd. pose proof (r_coh _ _ _ _ R) as C. pose proof (co_forest _ _ C) as F. destruct (chain_list (t_heap (p_tree m)) (b + k) d F Hd) as (l & Hl & D & Hi).
  pose proof (rel_alive b a m k R Hk) as Al. destruct (root_alive eqv (p_tree m) (b + k) C Al) as (r & Er & Ho). destruct (co_root _ _ C r Er) as (_ & Hr & Hal).
  assert (Hx : length l <= length (t_alive (p_tree m))); [|rewrite (r_alive _ _ _ _ R), seq_length in Hx; lia].
  apply NoDup_incl_length; auto. intros x Hx. destruct (Hi x Hx) as [->|Hab]; auto. apply Hal.
  assert (Ho2 : owns (t_heap (p_tree m)) x (b + k)) by (apply owns_above; auto). destruct (owns_linear _ r x (b + k) F Ho Ho2) as [|Hxr]; auto.
  apply owns_above in Hxr; auto. destruct Hxr as [->|Hxr]; [constructor|]. exfalso. inversion Hxr; congruence.
Qed.
Lemma fill_sim b (a : tree V I) m : rel b a m -> forall c o acc, (forall k, o = Some k -> k < length a) -> p_fill c m (option_map (Nat.add b) o) acc = fill c a o acc.
Proof.
  intros R. induction c as [|c IH]; intros o acc Ho; cbn [p_fill fill]; auto. destruct o as [k|]; cbn [option_map]; auto.
  specialize (Ho k eq_refl). apply nth_error_Some in Ho. destruct (nth_error a k) as [n|] eqn:En; [|congruence].
  unfold vget. rewrite En. rewrite (read_ok (p_tree m) (b + k) (tn_state n)) by (eapply rel_node; eauto). cbn [bind].
  destruct (r_nodes _ _ _ _ R k n En) as (_ & -> & _). apply IH. intros q Hq. eapply rel_parent; eauto.
Qed.
Lemma path_sim b (a : tree V I) m sol : rel b a m -> p_solution m = option_map (Nat.add b) sol -> (forall k, sol = Some k -> k < length a) -> p_path m = get_path a sol.
Proof.
  intros R Hs Hk. unfold p_path, get_path. rewrite Hs. destruct sol as [k|]; cbn [option_map]; auto. specialize (Hk k eq_refl).
  rewrite (rel_lives b a m k R Hk). destruct (fo_ends _ (co_forest _ _ (r_coh _ _ _ _ R)) (b + k)) as [d Hd].
  pose proof (depth_bound b a m k d R Hk Hd) as L. rewrite (get_depth_ok _ _ d Hd) by (rewrite (r_size _ _ _ _ R); lia). cbn [bind].
  pose proof Hk as Hk'. apply nth_error_Some in Hk'. destruct (nth_error a k) as [n|] eqn:En; [|congruence].
  rewrite (depth_sim b a m R (b + k) d Hd k n (S (length a)) eq_refl En) by lia. cbn [bind]. apply (fill_sim b a m R (S d) (Some k)). intros q Hq. now injection Hq as <-.
Qed.

(** A whole search. *)
Lemma search_sim maxIteration maxNode body pbody :
  (forall b it a m, rel b a m -> a <> [] -> exists a' o m', body it a = Ok (a', o) /\ pbody it m = Ok (m', option_map (Nat.add b) o) /\
     rel b a' m' /\ a' <> [] /\ (forall k, o = Some k -> k < length a') /\ p_solution m' = p_solution m) ->
  forall (m : pmem V I) init, coherent eqv (p_tree m) ->
  seen (p_search eqv info0 maxIteration maxNode pbody m init) =
    expected (search_loop maxIteration maxNode body (S (S (Z.to_nat maxIteration))) 0 (create_root info0 init)) /\
  forall s m' n, p_search eqv info0 maxIteration maxNode pbody m init = Ok (s, m', n) -> coherent eqv (p_tree m').
Proof.
  intros Hb m init C. destruct (start_sim m init C) as (m0 & b & E & R & Hs). unfold p_search. rewrite E. cbn [bind].
  pose proof (loop_sim maxIteration maxNode body pbody b (Hb b) (S (S (Z.to_nat maxIteration))) 0 _ m0 R ltac:(discriminate) Hs) as L.
  destruct (search_loop maxIteration maxNode body _ 0 (create_root info0 init)) as [[[[s a] sol] c]| | |]; [|rewrite L; split; [reflexivity|discriminate]|contradiction|rewrite L; split; [reflexivity|discriminate]].
  destruct L as (m' & E' & R' & Hs' & Hk). rewrite E'. unfold seen, expected. cbn [bind]. rewrite (path_sim b a m' sol R' Hs' Hk), (rel_t_size b a m' R'). split; auto.
  intros s2 m2 n2 G. assert (m2 = m') by congruence. subst. apply R'.
Qed.
End Sim.

Section Planners.
Context {V P : Type} (eqv : V -> V -> bool) (final : P -> V).
Hypothesis He : equivalence V eqv.
Section One.
Context (steer : V -> V -> P) (valid : P -> bool) (issol : V -> bool) (sample : Z -> V) (nearest : Z -> list V -> V -> nat).
Hypothesis An : answers nearest.

Lemma rrt_body_sim b it (a : tree V (option P)) m : rel eqv b a m -> a <> [] -> exists a' o m',
  rrt_body eqv final steer valid issol sample nearest it a = Ok (a', o) /\
  p_rrt_body eqv final steer valid issol sample nearest it m = Ok (m', option_map (Nat.add b) o) /\
  rel eqv b a' m' /\ a' <> [] /\ (forall k, o = Some k -> k < length a') /\ p_solution m' = p_solution m.
Proof.
  intros R Ha. destruct (nearest_sim eqv He nearest b a m it (sample it) An R Ha) as (k & n & E1 & Hn & _ & E2). unfold rrt_body, p_rrt_body. rewrite E1, E2. cbn [bind].
  unfold vget. rewrite Hn. rewrite (read_ok (p_tree m) (b + k) (tn_state n)) by (eapply rel_node; eauto). cbn [bind].
  assert (Lk : k < length a) by (apply nth_error_Some; congruence).
  destruct (valid (steer (tn_state n) (sample it))); cbn [negb]; [|exists a, None, m; split; auto; split; auto; split; auto; split; auto; split; [discriminate|auto]].
  destruct (extend_sim eqv None He nearest b a m it (final (steer (tn_state n) (sample it))) (Some k) An R Ha) as (a1 & j & m1 & E3 & E4 & R1 & Ha1 & Lj & Hs1).
  { intros s Hs. now injection Hs as <-. }
  cbn [option_map] in E4. rewrite E3, E4. cbn [bind].
  destruct (set_info_sim eqv b a1 m1 j (Some (steer (tn_state n) (sample it))) R1 Lj) as (a2 & m2 & E5 & E6 & R2 & L2 & Hs2).
  rewrite E5, E6. cbn [bind]. eexists a2, _, m2. split; [reflexivity|]. split; [destruct (issol _); reflexivity|]. split; auto. split; [intros ->; cbn in L2; destruct a1; [auto|discriminate]|].
  split; [|congruence]. destruct (issol _); [|discriminate]. intros q Hq. injection Hq as <-. lia.
Qed.

Section Star.
Context {C : Type} (connect : V -> V -> P) (plength : P -> C) (zero : C) (add : C -> C -> C) (ltb : C -> C -> bool) (log : nat -> nat) (knn : Z -> list V -> V -> nat -> list nat).
Hypothesis Aa : answers_all knn.
Notation I := (sinfo (P := P) (C := C)).

Lemma get_nodes_sim b (a : tree V I) m it q nn : rel eqv b a m -> a <> [] -> nn <> 0 ->
  exists ks, get_nodes eqv a (knn it (states a) q nn) = Ok ks /\ p_nearests eqv (knn it) m q nn = Ok (m, map (fun k => Some (b + k)) ks) /\ forall k, In k ks -> k < length a.
Proof.
  intros R Ha Hnn. assert (Hk : knn_in_range (fun l v => nearest it l v) (knn it)).
  { split; [intros vs w Hv; now apply An|]. intros vs v n i. apply Aa. }
  destruct (nearests_ok eqv _ (knn it) He Hk (p_tree m) q nn (r_coh _ _ _ _ R) (or_intror (rel_root eqv b a m R Ha))) as (vs & ns & ps & F & E & Fn & Fi & _).
  specialize (Fi Hnn). pose proof (rel_states eqv b a m R vs F) as ->.
  assert (G : forall is, Forall2 (fun i p => nth_error (states a) i = Some p) is ps -> get_nodes eqv a is = Ok is /\ ns = map (Nat.add b) is /\ forall k, In k is -> k < length a).
  { clear Fi E. revert ns Fn. induction ps as [|p ps IH]; intros ns Fn is Fi; inversion Fi as [|i ? is' ? Hi Fi']; subst; inversion Fn as [|x ? ns' ? Hx Fn']; subst; cbn [get_nodes map].
    - split; [reflexivity|]. split; [reflexivity|easy].
    - destruct (IH ns' Fn' is' Fi') as (G1 & G2 & G3). unfold vget. rewrite Hi. cbn [bind]. rewrite G1. cbn [bind].
      destruct (nth_states a i p Hi) as (n & Hn & <-). rewrite (find_own eqv He b a m i n R Hn). split; auto. split.
      + f_equal; auto. destruct Hx as [A1 A2]. destruct (rel_node eqv b a m i n R Hn) as [B1 B2].
        apply (co_apart _ _ (r_coh _ _ _ _ R) x (b + i) (tn_state n) (tn_state n)); auto. apply (eqk_refl _ _ He).
      + intros k [<-|Hk']; auto. apply nth_error_Some. congruence. }
  destruct (G _ Fi) as (G1 & -> & G3). eexists. split; [exact G1|]. split; auto. unfold p_nearests. rewrite E. cbn [bind]. rewrite map_map. now destruct m.
Qed.

Lemma best_sim b (a : tree V I) m v : rel eqv b a m -> forall ks o c p, (forall k, In k ks -> k < length a) -> (forall k, o = Some k -> k < length a) ->
  exists o' c' p', best_parent valid connect plength add ltb a v ks (o, c, p) = Ok (o', c', p') /\
    p_best_parent valid connect plength add ltb m v (map (fun k => Some (b + k)) ks) (option_map (Nat.add b) o, c, p) = Ok (option_map (Nat.add b) o', c', p') /\
    forall k, o' = Some k -> k < length a.
Proof.
  intros R. induction ks as [|k ks IH]; intros o c p Hks Ho; cbn [best_parent p_best_parent map].
  - exists o, c, p. auto.
  - assert (Lk : k < length a) by (apply Hks; now left). pose proof Lk as Lk'. apply nth_error_Some in Lk'. destruct (nth_error a k) as [n|] eqn:En; [|congruence].
    unfold vget. rewrite En. rewrite (read_ok (p_tree m) (b + k) (tn_state n)) by (eapply rel_node; eauto). cbn [bind].
    unfold p_get_info. rewrite (rel_lives eqv b a m k R Lk). cbn [bind]. destruct (r_nodes _ _ _ _ R k n En) as (_ & _ & ->). cbn [fst snd].
    destruct (opt_ltb ltb (opt_add add (snd (tn_info n)) (plength (connect (tn_state n) v))) c && valid (connect (tn_state n) v)).
    + apply (IH (Some k)); [intros j Hj; apply Hks; now right|]. intros j Hj. now injection Hj as <-.
    + apply (IH o); [intros j Hj; apply Hks; now right|auto].
Qed.

Lemma star_body_sim b it (a : tree V I) m : rel eqv b a m -> a <> [] -> exists a' o m',
  star_body eqv final steer valid issol sample nearest connect plength zero add ltb log knn it a = Ok (a', o) /\
  p_star_body eqv final steer valid issol sample nearest connect plength zero add ltb log knn it m = Ok (m', option_map (Nat.add b) o) /\
  rel eqv b a' m' /\ a' <> [] /\ (forall k, o = Some k -> k < length a') /\ p_solution m' = p_solution m.
Proof.
  intros R Ha. destruct (nearest_sim eqv He nearest b a m it (sample it) An R Ha) as (k & n & E1 & Hn & _ & E2). unfold star_body, p_star_body. rewrite E1, E2. cbn [bind].
  unfold vget at 1. rewrite Hn. rewrite (read_ok (p_tree m) (b + k) (tn_state n)) by (eapply rel_node; eauto). cbn [bind].
  destruct (valid (steer (tn_state n) (sample it))); cbn [negb]; [|exists a, None, m; split; auto; split; auto; split; auto; split; auto; split; [discriminate|auto]].
  set (v := final (steer (tn_state n) (sample it))). rewrite (rel_t_size eqv b a m R).
  destruct (get_nodes_sim b a m it v (Nat.max 1 (log (length a))) R Ha) as (ks & E3 & E4 & Hks); [lia|]. rewrite E3, E4. cbn [bind].
  destruct (best_sim b a m v R ks None None None Hks) as (o & c & p & E5 & E6 & Ho); [discriminate|]. cbn [option_map] in E6. rewrite E5, E6. cbn [bind fst snd].
  destruct (extend_sim eqv (I := I) (None, Some zero) He nearest b a m it v o An R Ha Ho) as (a1 & j & m1 & E7 & E8 & R1 & Ha1 & Lj & Hs1).
  rewrite E7, E8. cbn [bind].
  destruct (set_info_sim eqv b a1 m1 j (p, c) R1 Lj) as (a2 & m2 & E9 & E10 & R2 & L2 & Hs2).
  rewrite E9, E10. cbn [bind]. eexists a2, _, m2. split; [reflexivity|]. split; [destruct (issol _); reflexivity|]. split; auto. split; [intros ->; cbn in L2; destruct a1; [auto|discriminate]|].
  split; [|congruence]. destruct (issol _); [|discriminate]. intros q Hq. injection Hq as <-. lia.
Qed.
End Star.
End One.

Lemma rrt_used_ok m : rrt_used eqv final m -> coherent eqv (p_tree m).
Proof.
  induction 1 as [|m steer valid issol sample nearest mi mn init s m' n Hm IH An E]; [apply coherent_new|].
  refine (proj2 (search_sim eqv None mi mn (rrt_body eqv final steer valid issol sample nearest) _ _ m init IH) s m' n E). intros b it a x. now apply rrt_body_sim.
Qed.
Lemma rrt_same m steer valid issol sample nearest mi mn init : rrt_used eqv final m -> answers nearest ->
  seen (p_rrt_search eqv final steer valid issol sample nearest mi mn m init) = expected (rrt_search eqv final steer valid issol sample nearest mi mn init).
Proof.
  intros Hm An. refine (proj1 (search_sim eqv None mi mn (rrt_body eqv final steer valid issol sample nearest) _ _ m init (rrt_used_ok m Hm))). intros b it a x. now apply rrt_body_sim.
Qed.
Lemma star_used_ok {C} (zero : C) add ltb m : star_used eqv final zero add ltb m -> coherent eqv (p_tree m).
Proof.
  induction 1 as [|m steer valid issol sample nearest mi mn connect plength log knn init s m' n Hm IH An Aa E]; [apply coherent_new|].
  refine (proj2 (search_sim eqv _ mi mn (star_body eqv final steer valid issol sample nearest connect plength zero add ltb log knn) _ _ m init IH) s m' n E). intros b it a x. now apply star_body_sim.
Qed.
Lemma star_same {C} (zero : C) add ltb m steer valid issol sample nearest mi mn connect plength log knn init : star_used eqv final zero add ltb m ->
  answers nearest -> answers_all knn ->
  seen (p_star_search eqv final steer valid issol sample nearest mi mn connect plength zero add ltb log knn m init) =
  expected (star_search eqv final steer valid issol sample nearest mi mn connect plength zero add ltb log knn init).
Proof.
  intros Hm An Aa. refine (proj1 (search_sim eqv _ mi mn (star_body eqv final steer valid issol sample nearest connect plength zero add ltb log knn) _ _ m init
    (star_used_ok zero add ltb m Hm))).
  intros b it a x. now apply star_body_sim.
Qed.
End Planners.
