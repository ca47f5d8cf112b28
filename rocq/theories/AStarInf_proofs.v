(** Proofs about searches in state spaces that may be infinite. *)
From Coq Require Import Reals Lra.
From Verif Require Import Base RealBase Frontier_model Frontier_spec Frontier_proofs AStar_model AStar_spec AStar_proofs
  AStar_opt_proofs AStarTree_spec AStarTree_proofs AStarInf_spec.

Section Grow.
  Context {S A C P : Type}.
  Context (eqs : S -> S -> bool) (ltb : C -> C -> bool) (add : C -> C -> C) (zero : C).
  Context (h : S -> C) (succ : P -> S -> list (S * A * C) * P) (issol : S -> bool)
          (guard : S -> S -> bool) (graph : bool) (nb : S -> list (S * A * C)).
  Context (Heq : decides_eq eqs) (Hcost : cost_laws ltb add) (Hdet : deterministic succ nb).
  Context (init : S).
  Let Heqs : equivalence S eqs := decides_eq_equiv eqs Heq.
  Let Hlt : strict_weak_order C ltb := cost_laws_swo ltb add Hcost.

  Notation node := (node S A C).
  Notation n_g := (@AStar_model.n_g S A C zero).
  Notation n_f := (@AStar_model.n_f S A C zero).
  Notation neq := (@n_eq S A C eqs).
  Notation finv := (finv (@n_cmp S A C ltb zero) neq).
  Notation upds := (upds eqs ltb add zero h guard graph).
  Notation le := (leb ltb).
  Notation child_of := (child_of add zero h).
  Notation chain := (chain add zero h succ init).
  Notation inv := (inv_tree eqs ltb add zero h succ issol nb init).
  Notation loop := (search_loop eqs ltb add zero h succ issol guard graph).

  (** A node that waits in the frontier, or a better one for the same state, goes on waiting. *)
  Lemma upds_key n e ts l l' : upds n e ts l l' -> forall s K,
    (exists y, In y l /\ n_state y = s /\ le (n_f y) K) -> exists y, In y l' /\ n_state y = s /\ le (n_f y) K.
  Proof.
    induction 1 as [l|t ts l l1 l2 Hu Hus IH]; intros s K Hy; auto. apply IH. destruct Hy as (y & Hy & Hs & Hk).
    destruct Hu as [? ? Hm|? ? ? ? Hm|? ? Hm|fn ? Hin He ? Hb Hun Hm].
    - exists y. split; auto. now apply Hm.
    - exists y. split; auto. now apply Hm.
    - exists y. split; auto. apply Hm. auto.
    - destruct (neq (child_of n t) y) eqn:E.
      + exists (child_of n t). split; [apply Hm; auto|]. split; [apply (neq_state eqs Heq) in E; congruence|].
        rewrite (Hun y Hy E) in Hk. eapply (le_trans ltb add Hcost); [apply (lt_le ltb add Hcost _ _ Hb)|auto].
      + exists y. split; auto. apply Hm. auto.
  Qed.

  Lemma inv_dist (st : search S A C P) : inv st -> finv (st_front st).
  Proof. intros (_ & Hs & _). apply Hs. Qed.
  Lemma inv_chain (st : search S A C P) n : inv st -> In n (vec (st_front st)) -> chain n.
  Proof. intros (_ & (_ & Hc & _) & _) Hn. rewrite Forall_forall in Hc. auto. Qed.

  (** The nodes of at most [D] steps that can still be made below a node. *)
  Section Weight.
    Variable D : nat.
    Definition small (n : node) : nat := if n_depth n <=? D then count_paths nb (D - n_depth n) (n_state n) else 0.
    Definition smalls (l : list node) : nat := list_sum (map small l).

    Lemma smalls_incl (l : list node) : NoDup l -> forall m, incl l m -> smalls l <= smalls m.
    Proof using.
      intros Hnd. clear - Hnd. induction Hnd as [|x l Hx Hl IH]; intros m Hi; [cbn; lia|].
      destruct (in_split x m) as (m1 & m2 & ->); [apply Hi; cbn; auto|].
      specialize (IH (m1 ++ m2)). unfold smalls in *. rewrite map_app, list_sum_app in *. cbn [map list_sum fold_right] in *.
      enough (list_sum (map small l) <= list_sum (map small m1) + list_sum (map small m2)).
      { cbn. change (fold_right Nat.add 0 (map small l)) with (list_sum (map small l)).
        change (fold_right Nat.add 0 (map small m2)) with (list_sum (map small m2)). lia. }
      apply IH. intros y Hy. assert (Hy' : In y (m1 ++ x :: m2)) by (apply Hi; cbn; auto).
      apply in_app_or in Hy' as [?|[->|?]]; [apply in_or_app; auto|contradiction|apply in_or_app; auto].
    Qed.

    Lemma small_children n : n_depth n <= D ->
      Datatypes.S (smalls (map (child_of n) (nb (n_state n)))) <= small n.
    Proof using.
      clear. intros Hn. unfold small at 1. assert (E : n_depth n <=? D = true) by (apply Nat.leb_le; auto).
      rewrite E. unfold smalls. rewrite map_map. destruct (D - n_depth n) as [|k] eqn:Ek.
      - cbn [count_paths]. apply le_n_S. replace (map _ _) with (map (fun _ : S * A * C => 0) (nb (n_state n))).
        + induction (nb (n_state n)); cbn; auto.
        + apply map_ext. intros [[t a] c]. unfold small. cbn [AStar_proofs.child_of n_depth].
          assert (E' : Datatypes.S (n_depth n) <=? D = false) by (apply Nat.leb_gt; lia). now rewrite E'.
      - cbn [count_paths]. apply le_n_S. apply Nat.eq_le_incl. f_equal. apply map_ext. intros [[t a] c].
        unfold small. cbn [AStar_proofs.child_of n_depth n_state fst].
        assert (E' : Datatypes.S (n_depth n) <=? D = true) by (apply Nat.leb_le; lia). rewrite E'. f_equal. lia.
    Qed.
  End Weight.

  (** After the first expansion: the explored states are no solutions, and what follows them is explored or
      waits in the frontier. *)
  Definition opened (st : search S A C P) : Prop :=
    covers (st_expl st) init /\
    (forall m, In m (st_expl st) -> issol (n_state m) = false) /\
    (forall m t, In m (st_expl st) -> In t (nb (n_state m)) ->
       covers (st_expl st) (fst (fst t)) \/ covers (vec (st_front st)) (fst (fst t))).

  Lemma opened_step st n fr fr' p :
      inv st -> In n (vec (st_front st)) ->
      (forall y, In y (vec (st_front st)) <-> y = n \/ In y (vec fr)) ->
      issol (n_state n) = false ->
      upds n (e_insert eqs n (st_expl st)) (fst (succ (st_prop st) (n_state n))) (vec fr) (vec fr') ->
      opened (Search fr' (e_insert eqs n (st_expl st)) p (n_state n :: st_queried st)).
  Proof.
    intros ((Hf & Hph) & _) Hn Hmem Hs Hu. rewrite Hdet in Hu. unfold opened. cbn [st_front st_expl].
    destruct Hph as [[He Hv]|(H0 & H1 & H2)].
    - rewrite Hv in Hn. destruct Hn as [<-|[]]. rewrite He in *.
      assert (Hins : e_insert eqs (Root init) [Root init] = [@Root S A C init]).
      { unfold e_insert, e_contains, n_eq. cbn. now rewrite (eqk_refl _ _ Heqs). }
      rewrite Hins in *. split; [|split].
      + exists (Root init). cbn. auto.
      + intros m [<-|[]]. auto.
      + intros m t [<-|[]] Ht. eapply (upds_cover eqs ltb add zero h guard graph Heq); eauto.
    - split; [|split].
      + now apply covers_insert.
      + intros m Hm. apply e_insert_In in Hm as [->|Hm]; auto.
      + intros m t Hm Ht.
        pose proof Hm as Hm'. apply e_insert_In in Hm' as [->|Hm']; [eapply (upds_cover eqs ltb add zero h guard graph Heq); eauto|].
        destruct (H2 m t Hm' Ht) as [Hc|Hc].
        * left. now apply covers_insert.
        * destruct Hc as (y & Hy & Hys). apply Hmem in Hy as [->|Hy].
          -- left. rewrite <- Hys. apply (covers_inserted eqs Heq).
          -- right. eapply (upds_keep eqs ltb add zero h guard graph Heq); eauto. exists y. auto.
  Qed.

  (** One turn of the loop. *)
  Lemma turn st : inv st -> f_is_empty (st_front st) = false ->
    exists n fr, f_pop neq (st_front st) = Ok (n, fr) /\ finv fr /\ In n (vec (st_front st)) /\
      (forall y, In y (vec (st_front st)) -> le (n_f n) (n_f y)) /\
      (forall y, In y (vec (st_front st)) <-> y = n \/ In y (vec fr)) /\ NoDup (n :: vec fr) /\
      (issol (n_state n) = false -> exists fr' p,
         let st' := Search fr' (e_insert eqs n (st_expl st)) p (n_state n :: st_queried st) in
         expand eqs ltb add zero h succ guard graph n (Search fr (st_expl st) (st_prop st) (st_queried st)) = Ok st' /\
         inv st' /\ opened st' /\ NoDup (vec fr') /\
         upds n (e_insert eqs n (st_expl st)) (nb (n_state n)) (vec fr) (vec fr')).
  Proof.
    intros Hst Ee. pose proof (inv_dist st Hst) as Hfi.
    destruct (pop_some eqs ltb add zero Heqs Hlt (st_front st) Hfi Ee) as (n & fr & Hp & Hfr & Hn & Hmin & Hmem & Hne).
    exists n, fr. split; auto. split; auto. split; auto. split; auto. split; auto. split.
    { constructor; [|eapply distinct_NoDup; eauto; apply Hfr]. intros Hin. specialize (Hne _ Hin). unfold n_eq in Hne.
      now rewrite (eqk_refl _ _ Heqs) in Hne. }
    intros Es.
    destruct (expand_upds eqs ltb add zero h succ guard graph Heqs Hlt n
                (Search fr (st_expl st) (st_prop st) (st_queried st))) as (fr' & p & He & Hfr' & Hu); auto.
    exists fr', p. cbn [st_expl st_queried st_front st_prop] in *. split; auto. split; [|split; [|split]].
    - eapply (inv_tree_step eqs ltb add zero h succ issol guard graph nb Heq Hdet init st n fr); eauto.
    - eapply (opened_step st n fr); eauto.
    - eapply distinct_NoDup; eauto. apply Hfr'.
    - now rewrite Hdet in Hu.
  Qed.

  (** With enough fuel the loop finds a solution. *)
  Definition ends (st : search S A C P) : Prop :=
    exists fuel0, forall fuel, fuel0 <= fuel -> exists n st', loop fuel st = Ok (Some n, st').

  Lemma ends_step st n fr : f_is_empty (st_front st) = false -> f_pop neq (st_front st) = Ok (n, fr) ->
    (issol (n_state n) = true \/
     exists st', expand eqs ltb add zero h succ guard graph n (Search fr (st_expl st) (st_prop st) (st_queried st)) = Ok st' /\
       ends st') -> ends st.
  Proof.
    intros He Hp [Hs|(st' & Hx & f0 & Hf)].
    - exists 1. intros [|fuel] Hfuel; [lia|]. cbn [search_loop]. rewrite He, Hp. cbn [bind]. rewrite Hs. eauto.
    - exists (Datatypes.S f0). intros [|fuel] Hfuel; [lia|]. cbn [search_loop]. rewrite He, Hp. cbn [bind].
      destruct (issol (n_state n)); [eauto|]. rewrite Hx. cbn [bind]. apply Hf. lia.
  Qed.

  Context (Hgrow : costs_grow succ ltb add zero h init).

  (** A state that waits in the frontier is expanded in the end, or a solution is found before. *)
  Lemma drain s : (forall st, inv st -> opened st -> covers (st_expl st) s -> ends st) -> forall K D,
    (forall l t, is_path succ init l t -> D < length l -> ltb K (add (path_cost add zero l) (h t)) = true) ->
    forall w st, inv st -> (exists y, In y (vec (st_front st)) /\ n_state y = s /\ le (n_f y) K) ->
      smalls D (vec (st_front st)) <= w -> ends st.
  Proof.
    intros Hexp K D HD. induction w as [w IH] using lt_wf_ind. intros st Hst (y & Hy & Hys & Hk) Hw.
    destruct (f_is_empty (st_front st)) eqn:Ee; [apply is_empty_true in Ee; now rewrite Ee in Hy|].
    destruct (turn st Hst Ee) as (n & fr & Hp & Hfr & Hn & Hmin & Hmem & Hnd & Hturn).
    apply (ends_step st n fr Ee Hp). destruct (issol (n_state n)) eqn:Es; auto. right.
    destruct (Hturn eq_refl) as (fr' & p & He & Hst' & Hop & Hnd' & Hu).
    eexists. split; [exact He|].
    assert (Hle0 : le (n_f n) K) by (eapply (le_trans ltb add Hcost); [apply Hmin|apply Hk]; auto).
    apply Hmem in Hy as [->|Hy].
    { apply Hexp; auto. cbn [st_expl]. rewrite <- Hys. apply (covers_inserted eqs Heq). }
    assert (Hd : n_depth n <= D).
    { destruct (Nat.le_gt_cases (n_depth n) D) as [?|Hd]; auto. exfalso.
      pose proof (inv_chain st n Hst Hn) as Hc. destruct (chain_path _ _ _ _ _ _ Hc) as (l & Hl & Hg & Hlen).
      assert (Hf : n_f n = add (n_g n) (h (n_state n))).
      { destruct Hst as (_ & _ & [Hv|Ht]).
        - rewrite Hv in Hn. destruct Hn as [<-|[]]. cbn in Hd. lia.
        - rewrite Forall_forall in Ht. now apply Ht. }
      specialize (HD l _ Hl ltac:(lia)). rewrite <- Hg, <- Hf in HD. unfold leb in Hle0. congruence. }
    pose proof (small_children D n Hd) as Hcw.
    assert (Hle : small D n + smalls D (vec fr) <= smalls D (vec (st_front st))).
    { apply (smalls_incl D (n :: vec fr) Hnd). intros z [<-|Hz]; auto. apply Hmem. auto. }
    assert (Hw' : smalls D (vec fr') <= smalls D (vec fr) + smalls D (map (child_of n) (nb (n_state n)))).
    { unfold smalls at 2 3. rewrite <- list_sum_app, <- map_app. apply smalls_incl; auto.
      intros z Hz. apply in_or_app.
      destruct (upds_in eqs ltb add zero h guard graph _ _ _ _ _ Hu z Hz) as [?|(t & Ht & ->)]; auto.
      right. now apply in_map. }
    apply (IH (smalls D (vec fr'))); [lia|exact Hst'| |cbn [st_front]; lia].
    cbn [st_front]. eapply upds_key; eauto.
  Qed.

  Lemma waits_ends s st : (forall st, inv st -> opened st -> covers (st_expl st) s -> ends st) ->
    inv st -> covers (vec (st_front st)) s -> ends st.
  Proof.
    intros Hexp Hst (y & Hy & Hys). destruct (Hgrow (n_f y)) as (D & HD).
    eapply (drain s Hexp (n_f y) D HD); eauto. exists y. split; auto. split; auto. apply (le_refl ltb add Hcost).
  Qed.

  (** So is every state on a path to a solution. *)
  Lemma path_ends l : forall s t, is_path succ s l t -> issol t = true ->
    forall st, inv st -> opened st -> covers (st_expl st) s -> ends st.
  Proof.
    induction l as [|x l IH]; intros s t Hl Ht st Hst (H0 & H1 & H2) (m & Hm & Hms); cbn [is_path] in Hl.
    - subst. rewrite H1 in Ht by auto. discriminate.
    - destruct Hl as [Htr Hl]. pose proof (trans_det succ nb Hdet _ _ _ _ Htr) as Hin. rewrite <- Hms in Hin.
      destruct (H2 m _ Hm Hin) as [Hc|Hc]; cbn [fst] in Hc.
      + eapply IH; eauto. split; auto.
      + eapply waits_ends; eauto.
  Qed.

  Lemma inv_start fr (p : P) : finv fr -> vec fr = [Root init] -> inv (Search fr [Root init] p []).
  Proof.
    intros Hf Hv. split; [|split].
    - split; [exact Hf|]. left. auto.
    - now apply inv_sound_init.
    - left. exact Hv.
  Qed.

  Lemma grow_search p l t : is_path succ init l t -> issol t = true ->
    exists fuel0, forall fuel, fuel0 <= fuel -> exists n st,
      search_path eqs ltb add zero h succ issol guard graph fuel init p = Ok (Some n, st).
  Proof.
    intros Hl Ht. unfold search_path.
    destruct (init_search_ok (A:=A) eqs ltb zero Heqs Hlt init p) as (fr & Hi & Hfr & Hv). rewrite Hi. cbn [bind].
    apply (waits_ends init); [|now apply inv_start|].
    - intros st Hst Hop Hc. eapply path_ends; eauto.
    - exists (Root init). cbn [st_front]. rewrite Hv. cbn. auto.
  Qed.
End Grow.

(** ** Failure *)
Section Fail.
  Context {S A C P : Type}.
  Context (eqs : S -> S -> bool) (ltb : C -> C -> bool) (add : C -> C -> C) (zero : C).
  Context (h : S -> C) (succ : P -> S -> list (S * A * C) * P) (issol : S -> bool)
          (guard : S -> S -> bool) (graph : bool) (nb : S -> list (S * A * C)).
  Context (Heq : decides_eq eqs) (Hlt : strict_weak_order C ltb) (Hdet : deterministic succ nb).
  Let Heqs : equivalence S eqs := decides_eq_equiv eqs Heq.

  (** What is explored has been given to the propagator. *)
  Definition inv_asked init (st : search S A C P) : Prop :=
    inv_cover eqs ltb zero issol nb init st /\
    ((st_expl st = [Root init] /\ vec (st_front st) = [Root init]) \/
     incl (map n_state (st_expl st)) (st_queried st)).

  Lemma fail_search fuel init p st :
    search_path eqs ltb add zero h succ issol guard graph fuel init p = Ok (None, st) ->
    forall t, reachable succ init t -> In t (st_queried st).
  Proof.
    intros H. apply search_path_loop in H as (fr & Hf & Hv & H); auto.
    apply (loop_ind eqs ltb add zero h succ issol guard graph Heqs Hlt (inv_asked init)) in H.
    - destruct H as (st0 & ((_ & Hph) & Hq) & Hv0 & ->). intros t [l Hl].
      destruct Hph as [[_ Hv1]|(H0 & H1 & H2)]; [congruence|]. destruct Hq as [[_ Hv1]|Hq]; [congruence|].
      assert (Hgen : forall l s, covers (st_expl st0) s -> is_path succ s l t -> covers (st_expl st0) t).
      { clear l Hl. induction l as [|e l IH]; intros s Hc Hl; cbn [is_path] in Hl; [now subst|].
        destruct Hl as [Htr Hl]. apply (IH (step_state e)); auto.
        destruct Hc as (m & Hm & Hms). apply (trans_det succ nb Hdet) in Htr. rewrite <- Hms in Htr.
        destruct (H2 m _ Hm Htr) as [Hc|(y & Hy & _)]; auto. now rewrite Hv0 in Hy. }
      destruct (Hgen l init H0 Hl) as (m & Hm & <-). apply Hq. now apply in_map.
    - intros st0 Hst0. apply Hst0.
    - intros st0 n fr0 fr1 p0 (Hc & Hq) Hfr Hn Hmin Hmem Hne Hs Hfr1 Hu. split.
      + eapply (inv_cover_step eqs ltb add zero h succ issol guard graph nb Heq Hdet init st0 n fr0); eauto.
      + right. cbn [st_expl st_queried]. intros s Hin. apply in_map_iff in Hin as (m & <- & Hm).
        apply e_insert_In in Hm as [->|Hm]; [now left|].
        destruct Hq as [[He Hv0]|Hq]; [|right; apply Hq; now apply in_map].
        rewrite He in Hm. rewrite Hv0 in Hn. destruct Hm as [<-|[]], Hn as [<-|[]]. now left.
    - split; [split; [exact Hf|left; auto]|]. left. auto.
  Qed.
End Fail.

(** ** A path that goes on below the cost of the solutions *)
Section Starved.
  Context {S A C P : Type}.
  Context (eqs : S -> S -> bool) (ltb : C -> C -> bool) (add : C -> C -> C) (zero : C).
  Context (h : S -> C) (succ : P -> S -> list (S * A * C) * P) (issol : S -> bool)
          (guard : S -> S -> bool) (graph : bool) (nb : S -> list (S * A * C)).
  Context (Heq : decides_eq eqs) (Hcost : cost_laws ltb add) (Hdet : deterministic succ nb).
  Context (init : S) (f : nat -> S) (Hf : runaway succ init f).
  Context (Hcheap : forall i l l' t, is_path succ init l (f i) -> is_path succ init l' t -> issol t = true ->
    ltb (add (path_cost add zero l) (h (f i))) (add (path_cost add zero l') (h t)) = true).
  Let Heqs : equivalence S eqs := decides_eq_equiv eqs Heq.
  Let Hlt : strict_weak_order C ltb := cost_laws_swo ltb add Hcost.
  Notation inv := (inv_tree eqs ltb add zero h succ issol nb init).

  Lemma start_not_sol : issol init = false.
  Proof.
    destruct (issol init) eqn:E; auto. destruct Hf as (H0 & _).
    assert (Hp : is_path succ init [] (f 0)) by (cbn; congruence).
    specialize (Hcheap 0 [] [] init Hp eq_refl E). cbn in Hcheap. rewrite H0 in Hcheap.
    rewrite (c_irrefl _ _ _ Hcost) in Hcheap. discriminate.
  Qed.

  (** Some state of the path waits in the frontier. *)
  Lemma runaway_waits (st : search S A C P) : opened issol nb init st -> exists i, covers (vec (st_front st)) (f i).
  Proof using Heq Hdet Hf.
    clear - Heq Hdet Hf. intros (H0 & H1 & H2). destruct Hf as (Hf0 & Hstep & Hinj).
    assert (Hone : exists i, ~ covers (st_expl st) (f i) /\ forall j, j < i -> covers (st_expl st) (f j)).
    { assert (Hdec : forall i, covers (st_expl st) (f i) \/ ~ covers (st_expl st) (f i)).
      { intros i. destruct (existsb (fun m => eqs (n_state m) (f i)) (st_expl st)) eqn:E.
        - left. apply existsb_exists in E as (m & Hm & E). apply Heq in E. exists m. auto.
        - right. intros (m & Hm & Hs). rewrite <- not_true_iff_false in E. apply E. apply existsb_exists. exists m.
          split; auto. now apply Heq. }
      assert (Hex : forall k, (exists i, i < k /\ ~ covers (st_expl st) (f i) /\ forall j, j < i -> covers (st_expl st) (f j)) \/
                              forall j, j < k -> covers (st_expl st) (f j)).
      { induction k as [|k [(i & Hi & Hn & Hj)|IH]]; [right; lia| |].
        - left. exists i. split; [lia|auto].
        - destruct (Hdec k) as [Hk|Hk].
          + right. intros j Hj. destruct (Nat.eq_dec j k) as [->|]; auto. apply IH. lia.
          + left. exists k. split; [lia|auto]. }
      destruct (Hex (Datatypes.S (length (st_expl st)))) as [(i & _ & Hi)|Hall]; [eauto|]. exfalso.
      assert (Hnd : NoDup (map f (seq 0 (Datatypes.S (length (st_expl st)))))).
      { apply FinFun.Injective_map_NoDup; [|apply seq_NoDup]. intros i j. apply Hinj. }
      assert (Hincl : incl (map f (seq 0 (Datatypes.S (length (st_expl st))))) (map n_state (st_expl st))).
      { intros s Hs. apply in_map_iff in Hs as (i & <- & Hi). apply in_seq in Hi. destruct (Hall i) as (m & Hm & <-); [lia|].
        now apply in_map. }
      pose proof (NoDup_incl_length Hnd Hincl) as Hlen. rewrite !map_length, seq_length in Hlen. lia. }
    destruct Hone as ([|i] & Hn & Hj).
    - exfalso. apply Hn. now rewrite Hf0.
    - exists (Datatypes.S i). destruct (Hj i) as (m & Hm & Hms); [lia|]. destruct (Hstep i) as (a & c & Htr).
      pose proof (trans_det succ nb Hdet _ _ _ _ Htr) as Hin. rewrite <- Hms in Hin.
      destruct (H2 m _ Hm Hin) as [Hc|Hc]; cbn [fst] in Hc; [contradiction|auto].
  Qed.

  Lemma starved_loop fuel : forall st, inv st -> vec (st_front st) = [Root init] \/ opened issol nb init st ->
    search_loop eqs ltb add zero h succ issol guard graph fuel st = NoFuel.
  Proof.
    induction fuel as [|fuel IH]; intros st Hst Hop; [reflexivity|]. cbn [search_loop].
    assert (Hc : exists i, covers (vec (st_front st)) (f i)).
    { destruct Hop as [Hv|Hop]; [|now apply runaway_waits]. exists 0. exists (Root init). rewrite Hv. cbn.
      split; auto. symmetry. apply Hf. }
    destruct Hc as (i & y & Hy & Hyi).
    destruct (f_is_empty (st_front st)) eqn:Ee; [apply is_empty_true in Ee; now rewrite Ee in Hy|].
    destruct (turn eqs ltb add zero h succ issol guard graph nb Heq Hcost Hdet init st Hst Ee)
      as (n & fr & Hp & Hfr & Hn & Hmin & Hmem & Hnd & Hturn).
    rewrite Hp. cbn [bind].
    assert (Es : issol (n_state n) = false).
    { destruct (issol (n_state n)) eqn:Es; auto. exfalso.
      pose proof Hst as (_ & (_ & Hch & _) & [Hv|Ht]).
      - rewrite Hv in Hn. destruct Hn as [<-|[]]. cbn [n_state] in Es. rewrite start_not_sol in Es. discriminate.
      - rewrite Forall_forall in Hch, Ht. pose proof (Hmin y Hy) as Hle. unfold leb in Hle.
        rewrite (Ht n Hn), (Ht y Hy) in Hle.
        destruct (chain_path _ _ _ _ _ _ (Hch n Hn)) as (ln & Hln & Hgn & _).
        destruct (chain_path _ _ _ _ _ _ (Hch y Hy)) as (ly & Hly & Hgy & _).
        rewrite Hgn, Hgy, Hyi in Hle. rewrite Hyi in Hly.
        rewrite (Hcheap i ly ln (n_state n) Hly Hln Es) in Hle. discriminate. }
    rewrite Es. destruct (Hturn Es) as (fr' & p & He & Hst' & Hop' & _). rewrite He. cbn [bind]. apply IH; auto.
  Qed.

  Lemma starved_search fuel p : search_path eqs ltb add zero h succ issol guard graph fuel init p = NoFuel.
  Proof.
    unfold search_path.
    destruct (init_search_ok (A:=A) eqs ltb zero Heqs Hlt init p) as (fr & Hi & Hfr & Hv). rewrite Hi. cbn [bind].
    apply starved_loop; [|now left].
    apply inv_start; auto.
  Qed.
End Starved.

(** ** Costs over the reals *)
Section Real.
  Context {S A P : Type} (h : S -> R) (succ : P -> S -> list (S * A * R) * P) (e : R).
  Context (He : (0 < e)%R) (Hstep : steps_cost_at_least succ e) (Hh : forall s, (0 <= h s)%R).

  Lemma path_cost_steps l : forall s t g, is_path succ s l t -> (g + INR (length l) * e <= path_cost Rplus g l)%R.
  Proof.
    induction l as [|x l IH]; intros s t g Hl; cbn [is_path] in Hl.
    - cbn. lra.
    - destruct Hl as [Htr Hl]. apply Hstep in Htr. specialize (IH _ _ (g + step_cost x)%R Hl).
      cbn [length]. rewrite S_INR. change (path_cost Rplus g (x :: l)) with (path_cost Rplus (g + step_cost x)%R l). lra.
  Qed.

  Lemma real_grow init : costs_grow succ Rltb Rplus 0%R h init.
  Proof.
    intros K. assert (HD : exists D, (K / e < INR D)%R).
    { exists (Z.to_nat (up (K / e))). destruct (archimed (K / e)) as [Hup _].
      destruct (Z.le_gt_cases 0 (up (K / e))) as [Hz|Hz].
      - rewrite INR_IZR_INZ, Z2Nat.id; auto.
      - apply IZR_lt in Hz. pose proof (pos_INR (Z.to_nat (up (K / e)))). lra. }
    destruct HD as (D & HD). exists D. intros l t Hl Hlen. apply Rltb_true.
    pose proof (path_cost_steps l _ _ 0%R Hl) as Hc. specialize (Hh t).
    assert (HK : (K < INR D * e)%R).
    { apply (Rmult_gt_compat_r e) in HD; auto. unfold Rdiv in HD. rewrite Rmult_assoc, Rinv_l in HD by lra. lra. }
    apply lt_INR in Hlen. assert (INR D * e < INR (length l) * e)%R by (apply Rmult_lt_compat_r; auto). lra.
  Qed.
End Real.
