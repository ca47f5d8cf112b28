(** Proofs about tree search. *)
From Coq Require Import Permutation.
From Verif Require Import Base Frontier_model Frontier_spec Frontier_proofs AStar_model AStar_spec AStar_proofs
  AStar_opt_proofs AStarTree_spec.

(** The path, its cost and its length behind a node. *)
Lemma chain_path {S A C P} (add : C -> C -> C) zero (h : S -> C) (succ : P -> S -> list (S * A * C) * P) init n :
  chain add zero h succ init n ->
  exists l, is_path succ init l (n_state n) /\ n_g zero n = path_cost add zero l /\ length l = n_depth n.
Proof.
  induction 1 as [|n a c t Hn (l & Hp & Hg & Hs) Ht].
  - exists []. cbn. auto.
  - exists (l ++ [(a, c, t)]). split; [|split].
    + apply is_path_app. exists (n_state n). cbn. auto.
    + rewrite path_cost_app. cbn [child_of n_g path_cost fold_left step_cost fst snd]. now rewrite Hg.
    + rewrite app_length, Hs. cbn. lia.
Qed.

Section OneCost.
  Context {S A C P : Type}.
  Context (eqs : S -> S -> bool) (ltb : C -> C -> bool) (add : C -> C -> C) (zero : C).
  Context (h : S -> C) (succ : P -> S -> list (S * A * C) * P) (issol : S -> bool)
          (guard : S -> S -> bool) (graph : bool) (nb : S -> list (S * A * C)).
  Context (Heq : decides_eq eqs) (Hcost : cost_laws ltb add) (Hdet : deterministic succ nb).
  Context (init : S) (Hone : one_cost succ add zero init).
  Context (Hadm : admissible_from succ ltb add h issol init) (Hsolpos : nonneg_at_solutions ltb add h issol).
  Let Heqs : equivalence S eqs := decides_eq_equiv eqs Heq.
  Let Hlt : strict_weak_order C ltb := cost_laws_swo ltb add Hcost.

  Notation node := (node S A C).
  Notation n_g := (@AStar_model.n_g S A C zero).
  Notation n_f := (@AStar_model.n_f S A C zero).
  Notation neq := (@n_eq S A C eqs).
  Notation finv := (finv (@n_cmp S A C ltb zero) neq).
  Notation upds := (upds eqs ltb add zero h guard graph).
  Notation le := (leb ltb).
  Notation child_of := (child_of add zero h).
  Notation cost := (path_cost add zero).
  Notation total_ok := (total_ok add zero h).

  Lemma upds_in (n : node) e (ts : list (S * A * C)) l l' : upds n e ts l l' ->
    forall y, In y l' -> In y l \/ exists t, In t ts /\ y = child_of n t.
  Proof.
    induction 1 as [l|t ts l l1 l2 Hu Hus IH]; intros y Hy; auto.
    destruct (IH y Hy) as [Hy1|(t' & Ht' & ->)]; [|right; exists t'; cbn; auto].
    destruct Hu as [? ? Hm|? ? ? ? Hm|? ? Hm|? ? ? ? ? ? ? Hm]; apply Hm in Hy1; auto.
    - destruct Hy1 as [->|Hy1]; auto. right. exists t. cbn. auto.
    - destruct Hy1 as [->|[Hy1 _]]; auto. right. exists t. cbn. auto.
  Qed.

  Definition inv_tree (st : search S A C P) : Prop :=
    inv_cover eqs ltb zero issol nb init st /\ inv_sound eqs ltb add zero h succ init st /\
    (vec (st_front st) = [Root init] \/ Forall total_ok (vec (st_front st))).

  Lemma inv_tree_step st n fr fr' p :
      inv_tree st -> finv fr -> In n (vec (st_front st)) ->
      (forall y, In y (vec (st_front st)) -> le (n_f n) (n_f y)) ->
      (forall y, In y (vec (st_front st)) <-> y = n \/ In y (vec fr)) ->
      (forall y, In y (vec fr) -> neq n y = false) ->
      issol (n_state n) = false ->
      finv fr' ->
      upds n (e_insert eqs n (st_expl st)) (fst (succ (st_prop st) (n_state n))) (vec fr) (vec fr') ->
      inv_tree (Search fr' (e_insert eqs n (st_expl st)) p (n_state n :: st_queried st)).
  Proof.
    intros (Hc & Hs & Ht) Hfr Hn Hmin Hmem Hne Hsol Hfr' Hu. split; [|split].
    - eapply (inv_cover_step eqs ltb add zero h succ issol guard graph nb Heq Hdet init st n fr); eauto.
    - eapply (inv_sound_step eqs ltb add zero h succ issol guard graph init st n fr); eauto.
    - right. cbn [st_front]. rewrite Forall_forall. intros y Hy.
      apply (upds_in _ _ _ _ _ Hu) in Hy as [Hy|(t & _ & ->)]; [|apply child_total].
      destruct Ht as [Ht|Ht].
      + exfalso. assert (Hy' : In y (vec (st_front st))) by (apply Hmem; auto).
        rewrite Ht in Hn, Hy'. destruct Hn as [<-|[]], Hy' as [<-|[]].
        specialize (Hne _ Hy). unfold n_eq in Hne. now rewrite (eqk_refl _ _ Heqs) in Hne.
      + rewrite Forall_forall in Ht. apply Ht, Hmem. auto.
  Qed.

  (** A path from an explored state to a solution leaves the explored states through the frontier. *)
  Lemma leaves (e l : list node) :
    (forall m, In m e -> issol (n_state m) = false) ->
    (forall m t, In m e -> In t (nb (n_state m)) -> covers e (fst (fst t)) \/ covers l (fst (fst t))) ->
    forall p s t, covers e s -> is_path succ s p t -> issol t = true ->
      exists p1 p2 z, p = p1 ++ p2 /\ In z l /\ is_path succ s p1 (n_state z) /\ is_path succ (n_state z) p2 t.
  Proof.
    intros H1 H2 p. induction p as [|x p IH]; intros s t (m & Hm & Hms) Hp Ht; cbn [is_path] in Hp.
    - subst. rewrite H1 in Ht by auto. discriminate.
    - destruct Hp as [Htr Hp]. pose proof (trans_det succ nb Hdet _ _ _ _ Htr) as Hin.
      rewrite <- Hms in Hin. destruct (H2 m _ Hm Hin) as [Hc|(z & Hz & Hzs)].
      + destruct (IH _ _ Hc Hp Ht) as (p1 & p2 & z & -> & Hz & Hp1 & Hp2).
        exists (x :: p1), p2, z. cbn [app is_path]. auto.
      + cbn [fst] in Hzs. exists [x], p, z. split; auto. split; auto. cbn [is_path]. rewrite Hzs. auto.
  Qed.

  Lemma tree_optimal fuel p n st :
    search_path eqs ltb add zero h succ issol guard graph fuel init p = Ok (Some n, st) ->
    forall l t, is_path succ init l t -> issol t = true -> le (n_g n) (cost l).
  Proof.
    intros H. apply search_path_loop in H as (fr & Hf & Hv & H); auto.
    apply (loop_ind eqs ltb add zero h succ issol guard graph Heqs Hlt inv_tree) in H.
    - destruct H as (st0 & (Hc & Hs & Ht) & Hn & Hsol & Hmin & _). intros l t Hl Hst.
      destruct Hs as (_ & Hch & _). rewrite Forall_forall in Hch.
      assert (Hroot : n = Root init -> le (n_g n) (cost l)).
      { intros ->. cbn [AStar_model.n_g]. cbn [n_state] in Hsol.
        apply (le_trans ltb add Hcost _ (add zero (h init))); [now apply Hsolpos|].
        eapply Hadm; eauto. now exists []. }
      destruct Hc as (_ & [[_ Hv0]|(H0 & H1 & H2)]).
      { rewrite Hv0 in Hn. destruct Hn as [<-|[]]. auto. }
      destruct Ht as [Ht|Ht]; [rewrite Ht in Hn; destruct Hn as [<-|[]]; auto|].
      rewrite Forall_forall in Ht.
      destruct (leaves _ _ H1 H2 l init t H0 Hl Hst) as (p1 & p2 & z & -> & Hz & Hp1 & Hp2).
      destruct (chain_path add zero h succ init z (Hch z Hz)) as (lz & Hlz & Hgz & _).
      assert (Hg : n_g z = cost p1) by (rewrite Hgz; eapply Hone; eauto).
      apply (le_trans ltb add Hcost _ (n_f n)).
      { rewrite (Ht n Hn). now apply Hsolpos. }
      apply (le_trans ltb add Hcost _ (n_f z)); [now apply Hmin|].
      rewrite (Ht z Hz), Hg, path_cost_app. eapply Hadm; eauto. now exists p1.
    - intros st0 Hst0. apply Hst0.
    - intros st0 n0 fr0 fr1 p0 ? ? ? ? ? ? ? ? ?. eapply (inv_tree_step st0 n0 fr0); eauto.
    - split; [|split].
      + split; [exact Hf|]. left. auto.
      + now apply inv_sound_init.
      + left. exact Hv.
  Qed.
End OneCost.

Section Bounded.
  Context {S A C P : Type}.
  Context (eqs : S -> S -> bool) (ltb : C -> C -> bool) (add : C -> C -> C) (zero : C).
  Context (h : S -> C) (succ : P -> S -> list (S * A * C) * P) (issol : S -> bool)
          (guard : S -> S -> bool) (graph : bool) (nb : S -> list (S * A * C)).
  Context (Heqs : equivalence S eqs) (Hlt : strict_weak_order C ltb) (Hdet : deterministic succ nb).
  Context (init : S) (N : nat) (HN : paths_at_most succ init N).

  Notation node := (node S A C).
  Notation neq := (@n_eq S A C eqs).
  Notation cmp := (@n_cmp S A C ltb zero).
  Notation finv := (finv cmp neq).
  Notation upds := (upds eqs ltb add zero h guard graph).
  Notation child_of := (child_of add zero h).
  Notation chain := (chain add zero h succ init).

  (** How many nodes can still be made below a node, itself included. *)
  Definition weight (n : node) : nat := count_paths nb (N - n_depth n) (n_state n).
  Definition weights (l : list node) : nat := list_sum (map weight l).

  Lemma weights_incl (l : list node) : NoDup l -> forall m, incl l m -> weights l <= weights m.
  Proof using.
    intros Hnd. clear - Hnd. induction Hnd as [|x l Hx Hl IH]; intros m Hi; [cbn; lia|].
    destruct (in_split x m) as (m1 & m2 & ->); [apply Hi; cbn; auto|].
    specialize (IH (m1 ++ m2)). unfold weights in *. rewrite map_app, list_sum_app in *. cbn [map list_sum fold_right] in *.
    enough (list_sum (map weight l) <= list_sum (map weight m1) + list_sum (map weight m2)).
    { cbn. change (fold_right Nat.add 0 (map weight l)) with (list_sum (map weight l)).
      change (fold_right Nat.add 0 (map weight m2)) with (list_sum (map weight m2)). lia. }
    apply IH. intros y Hy. assert (Hy' : In y (m1 ++ x :: m2)) by (apply Hi; cbn; auto).
    apply in_app_or in Hy' as [?|[->|?]]; [apply in_or_app; auto|contradiction|apply in_or_app; auto].
  Qed.

  Lemma distinct_NoDup l : distinct neq l -> NoDup l.
  Proof.
    induction 1 as [|x l Hx Hl IH]; constructor; auto. intros Hin. rewrite Forall_forall in Hx.
    specialize (Hx _ Hin). unfold n_eq in Hx. now rewrite (eqk_refl _ _ Heqs) in Hx.
  Qed.

  (** Expanding a node replaces it by nodes that weigh less in total. *)
  Lemma children_weight (p : P) n : chain n ->
    Datatypes.S (weights (map (child_of n) (nb (n_state n)))) <= weight n.
  Proof using Hdet HN.
    intros Hn. clear - Hn Hdet HN p. destruct (chain_path _ _ _ _ _ _ Hn) as (l & Hp & _ & Hd). unfold weight at 1.
    destruct (N - n_depth n) as [|k] eqn:E.
    - destruct (nb (n_state n)) as [|[[t a] c] ts] eqn:Et; [cbn; lia|]. exfalso.
      assert (Hl : is_path succ init (l ++ [(a, c, t)]) t).
      { apply is_path_app. exists (n_state n). split; auto. cbn. split; auto.
        exists p. rewrite Hdet, Et. cbn. auto. }
      apply HN in Hl. rewrite app_length in Hl. cbn in Hl. lia.
    - cbn [count_paths]. apply le_n_S. unfold weights. rewrite map_map.
      apply Nat.eq_le_incl. f_equal. apply map_ext. intros [[t a] c]. unfold weight.
      cbn [AStar_proofs.child_of n_depth n_state fst]. f_equal. lia.
  Qed.

  Lemma bounded_loop fuel : forall st, inv_sound eqs ltb add zero h succ init st ->
    weights (vec (st_front st)) < fuel ->
    exists r st', search_loop eqs ltb add zero h succ issol guard graph fuel st = Ok (r, st') /\
      length (st_queried st') <= length (st_queried st) + weights (vec (st_front st)).
  Proof.
    induction fuel as [|fuel IH]; intros st Hs Hw; [lia|]. cbn [search_loop].
    destruct (f_is_empty (st_front st)) eqn:Ee.
    { exists None, st. split; auto. lia. }
    destruct (pop_some eqs ltb add zero Heqs Hlt (st_front st)) as (n & fr & Hp & Hfr & Hn & Hmin & Hmem & Hne); auto; [apply Hs|].
    rewrite Hp. cbn [bind].
    assert (Hnd : NoDup (n :: vec fr)).
    { constructor; [|apply distinct_NoDup, Hfr]. intros Hin. specialize (Hne _ Hin). unfold n_eq in Hne.
      now rewrite (eqk_refl _ _ Heqs) in Hne. }
    assert (Hle : weight n + weights (vec fr) <= weights (vec (st_front st))).
    { apply (weights_incl (n :: vec fr) Hnd). intros y [<-|Hy]; auto. apply Hmem. auto. }
    assert (Hch : chain n) by (destruct Hs as (_ & Hc & _); eapply Forall_forall in Hc; eauto).
    destruct (issol (n_state n)) eqn:Es.
    { exists (Some n), (Search fr (st_expl st) (st_prop st) (st_queried st)). split; auto. cbn [st_queried]. lia. }
    destruct (expand_upds eqs ltb add zero h succ guard graph Heqs Hlt n
                (Search fr (st_expl st) (st_prop st) (st_queried st))) as (fr' & p & He & Hfr' & Hu); auto.
    rewrite He. cbn [bind st_expl st_queried st_front st_prop] in *.
    assert (Hw' : weights (vec fr') <= weights (vec fr) + weights (map (child_of n) (nb (n_state n)))).
    { unfold weights at 2 3. rewrite <- list_sum_app, <- map_app. apply weights_incl; [apply distinct_NoDup, Hfr'|].
      intros y Hy. rewrite Hdet in Hu. apply in_or_app.
      destruct (upds_in eqs ltb add zero h guard graph _ _ _ _ _ Hu y Hy) as [?|(t & Ht & ->)]; auto.
      right. now apply in_map. }
    pose proof (children_weight (st_prop st) n Hch) as Hcw.
    assert (Hs' : inv_sound eqs ltb add zero h succ init
                    (Search fr' (e_insert eqs n (st_expl st)) p (n_state n :: st_queried st)))
      by (eapply (inv_sound_step eqs ltb add zero h succ issol guard graph init st n fr); eauto).
    destruct (IH _ Hs') as (r & st' & Hr & Hq); cbn [st_front st_queried length] in *; [lia|].
    exists r, st'. split; auto. lia.
  Qed.

  Lemma bounded_search fuel p : count_paths nb N init < fuel ->
    exists r st, search_path eqs ltb add zero h succ issol guard graph fuel init p = Ok (r, st) /\
      length (st_queried st) <= count_paths nb N init.
  Proof.
    intros Hf. unfold search_path.
    destruct (init_search_ok (A:=A) eqs ltb zero Heqs Hlt init p) as (fr & Hi & Hfr & Hv). rewrite Hi. cbn [bind].
    assert (Hw : weights (vec fr) = count_paths nb N init).
    { rewrite Hv. cbn. unfold weight. cbn [n_depth n_state]. rewrite Nat.sub_0_r. lia. }
    destruct (bounded_loop fuel (Search fr [Root init] p [])) as (r & st & Hr & Hq).
    - now apply inv_sound_init.
    - cbn [st_front]. lia.
    - cbn [st_front st_queried length] in Hq. exists r, st. split; auto. lia.
  Qed.
End Bounded.

(** Tree search and endless paths *)
Section Endless.
  Context {S A C P : Type}.
  Context (eqs : S -> S -> bool) (ltb : C -> C -> bool) (add : C -> C -> C) (zero : C).
  Context (h : S -> C) (succ : P -> S -> list (S * A * C) * P) (issol : S -> bool)
          (guard : S -> S -> bool) (nb : S -> list (S * A * C)).
  Context (Heq : decides_eq eqs) (Hlt : strict_weak_order C ltb) (Hdet : deterministic succ nb).
  Context (init : S) (f : nat -> S) (Hf : endless succ init f).
  Context (Hno : forall t, reachable succ init t -> issol t = false).
  Let Heqs : equivalence S eqs := decides_eq_equiv eqs Heq.

  Lemma endless_loop fuel : forall st, inv_sound eqs ltb add zero h succ init st ->
    (exists i, covers (vec (st_front st)) (f i)) ->
    search_loop eqs ltb add zero h succ issol guard false fuel st = NoFuel.
  Proof.
    induction fuel as [|fuel IH]; intros st Hs (i & y & Hy & Hyi); [reflexivity|]. cbn [search_loop].
    destruct (f_is_empty (st_front st)) eqn:Ee.
    { apply is_empty_true in Ee. now rewrite Ee in Hy. }
    destruct (pop_some eqs ltb add zero Heqs Hlt (st_front st)) as (n & fr & Hp & Hfr & Hn & Hmin & Hmem & Hne); auto; [apply Hs|].
    rewrite Hp. cbn [bind].
    assert (Hch : chain add zero h succ init n) by (destruct Hs as (_ & Hc & _); eapply Forall_forall in Hc; eauto).
    assert (Hsol : issol (n_state n) = false)
      by (apply Hno; destruct (chain_path _ _ _ _ _ _ Hch) as (l & Hl & _); now exists l).
    rewrite Hsol.
    destruct (expand_upds eqs ltb add zero h succ guard false Heqs Hlt n
                (Search fr (st_expl st) (st_prop st) (st_queried st))) as (fr' & p & He & Hfr' & Hu); auto.
    rewrite He. cbn [bind st_expl st_queried st_front st_prop] in *.
    apply IH.
    - eapply (inv_sound_step eqs ltb add zero h succ issol guard false init st n fr); eauto.
    - cbn [st_front]. apply Hmem in Hy as [->|Hy].
      + exists (Datatypes.S i). destruct Hf as [_ Hstep]. destruct (Hstep i) as (a & c & Htr).
        pose proof (trans_det succ nb Hdet _ _ _ _ Htr) as Hin. rewrite <- Hyi in Hin. rewrite Hdet in Hu.
        clear - Hu Hin Heq. revert Hin. induction Hu as [l|t ts l l1 l2 Hu Hus IHu]; intros Hin; [easy|].
        destruct Hin as [->|Hin]; auto.
        eapply (upds_keep eqs ltb add zero h guard false Heq); eauto.
        destruct Hu as [Hg ? ?|fn Hin Hfn ? Hm|? ? Hm|fn Hg ? ? ? ? ? ?]; try discriminate.
        * exists fn. split; [now apply Hm|]. apply (neq_state eqs Heq) in Hfn. cbn in Hfn. congruence.
        * exists (child_of add zero h n (f (Datatypes.S i), a, c)). split; [apply Hm; auto|reflexivity].
      + exists i. eapply (upds_keep eqs ltb add zero h guard false Heq); eauto. exists y. auto.
  Qed.

  Lemma endless_search fuel p : search_path eqs ltb add zero h succ issol guard false fuel init p = NoFuel.
  Proof.
    unfold search_path.
    destruct (init_search_ok (A:=A) eqs ltb zero Heqs Hlt init p) as (fr & Hi & Hfr & Hv). rewrite Hi. cbn [bind].
    apply endless_loop; [now apply inv_sound_init|]. exists 0. exists (Root init). cbn [st_front].
    rewrite Hv. split; [now left|]. cbn [n_state]. symmetry. apply Hf.
  Qed.
End Endless.
