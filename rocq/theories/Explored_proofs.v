(** Which states a search explores. *)
From Verif Require Import Base Frontier_model Frontier_spec Frontier_proofs AStar_model AStar_spec AStar_proofs AStar_opt_proofs Explored_model.
From Coq Require Import ZifyBool ZifyNat.

Section All.
  Context {S A C P : Type}.
  Context (eqs : S -> S -> bool) (ltb : C -> C -> bool) (add : C -> C -> C) (zero : C).
  Context (h : S -> C) (succ : P -> S -> list (S * A * C) * P) (issol : S -> bool)
          (guard : S -> S -> bool) (graph : bool) (nb : S -> list (S * A * C)).
  Context (Heq : decides_eq eqs) (Hlt : strict_weak_order C ltb) (Hdet : deterministic succ nb).
  Let Heqs : equivalence S eqs := decides_eq_equiv eqs Heq.

  Lemma distinct_NoDup (l : list S) : distinct_states eqs l -> NoDup l.
  Proof.
    induction 1 as [|a l Ha Hl IH]; constructor; auto. intros Hin. rewrite Forall_forall in Ha. specialize (Ha _ Hin).
    assert (eqs a a = true) by now apply Heq. congruence.
  Qed.

  Lemma explored_expanded fuel init p r st : graph = true ->
    search_path eqs ltb add zero h succ issol guard graph fuel init p = Ok (r, st) ->
    NoDup (get_explored_states st) /\ forall s, In s (get_explored_states st) <-> s = init \/ In s (st_queried st).
  Proof.
    intros Hg H. apply search_path_loop in H as (fr & Hf & Hv & H); auto.
    apply (loop_ind eqs ltb add zero h succ issol guard graph Heqs Hlt (fun st => inv_once eqs ltb add zero h succ init st /\ In init (map n_state (st_expl st)))) in H.
    - destruct H as (st0 & [(_ & Hd & Hph) Hin] & Hr). assert (E : st_expl st = st_expl st0 /\ st_queried st = st_queried st0) by (destruct r; destruct Hr as (A1 & A2); [intuition|now subst]).
      destruct E as [E1 E2]. unfold get_explored_states. rewrite E1, E2. split; [now apply distinct_NoDup|]. intros s.
      destruct Hph as [(-> & -> & _)|(-> & _)]; cbn; [intuition|]. split; [auto|]. intros [->|Hs]; auto.
    - intros st0 [((Hfi & _) & _) _]. exact Hfi.
    - intros st0 n0 fr0 fr1 p0 [Ho Hin] ? ? ? ? ? ? ? Hu. split; [eapply (inv_once_step eqs ltb add zero h succ issol guard graph Heqs init Hg st0 n0 fr0); eauto|].
      cbn [st_expl]. unfold e_insert. destruct (e_contains eqs n0 (st_expl st0)); auto. cbn. auto.
    - split; [apply inv_once_init; auto|]. cbn. auto.
  Qed.

  Lemma explored_reachable fuel init p r st :
    search_path eqs ltb add zero h succ issol guard graph fuel init p = Ok (r, st) ->
    forall s, In s (get_explored_states st) -> reachable succ init s.
  Proof.
    intros H. apply search_path_loop in H as (fr & Hf & Hv & H); auto.
    apply (loop_ind eqs ltb add zero h succ issol guard graph Heqs Hlt (inv_sound eqs ltb add zero h succ init)) in H.
    - destruct H as (st0 & (_ & _ & Hc) & Hr). assert (E1 : st_expl st = st_expl st0) by (destruct r; destruct Hr as (A1 & A2); [intuition|now subst]).
      intros s Hs. unfold get_explored_states in Hs. rewrite E1 in Hs. apply in_map_iff in Hs as (m & <- & Hm). rewrite Forall_forall in Hc.
      assert (X : forall a : A, reachable succ init (n_state m)) by (intros a; eapply (chain_reachable add zero a); eauto).
      destruct m as [s|s a g f q]; [|exact (X a)]. specialize (Hc _ Hm). inversion Hc; subst. apply reachable_refl.
    - intros st0 (Hfi & _). exact Hfi.
    - intros st0 n0 fr0 fr1 p0 ? ? ? ? ? ? ? ? ?. eapply (inv_sound_step eqs ltb add zero h succ issol guard graph init st0 n0 fr0); eauto.
    - now apply inv_sound_init.
  Qed.

  Lemma failure_explores_all fuel init p st :
    search_path eqs ltb add zero h succ issol guard graph fuel init p = Ok (None, st) ->
    forall t, In t (get_explored_states st) <-> reachable succ init t.
  Proof.
    intros H t. split; [eapply explored_reachable; eauto|]. apply search_path_loop in H as (fr & Hf & Hv & H); auto.
    apply (loop_ind eqs ltb add zero h succ issol guard graph Heqs Hlt (inv_cover eqs ltb zero issol nb init)) in H.
    - destruct H as (st0 & (_ & Hph) & Hv0 & ->). destruct Hph as [[_ Hv1]|(H0 & _ & H2)]; [congruence|].
      intros (l & Hl). enough (C1 : covers (st_expl st0) t) by (destruct C1 as (m & Hm & <-); unfold get_explored_states; now apply in_map).
      revert H0 Hl. generalize init as s. induction l as [|e l IH]; intros s Hc Hl; cbn [is_path] in Hl; [now subst|]. destruct Hl as [Htr Hl]. apply (IH (step_state e)); auto.
      destruct Hc as (m & Hm & Hms). apply (trans_det succ nb Hdet) in Htr. rewrite <- Hms in Htr. destruct (H2 m _ Hm Htr) as [Hc|(y & Hy & _)]; auto. now rewrite Hv0 in Hy.
    - intros st0 Hst0. apply Hst0.
    - intros st0 n0 fr0 fr1 p0 ? ? ? ? ? ? ? ? ?. eapply (inv_cover_step eqs ltb add zero h succ issol guard graph nb Heq Hdet init st0 n0 fr0); eauto.
    - split; [exact Hf|]. left. auto.
  Qed.
End All.

Section Efficient.
  Context {S A C P : Type}.
  Context (eqs : S -> S -> bool) (ltb : C -> C -> bool) (add : C -> C -> C) (zero : C).
  Context (h : S -> C) (succ : P -> S -> list (S * A * C) * P) (issol : S -> bool)
          (nb : S -> list (S * A * C)).
  Context (Heq : decides_eq eqs) (Hcost : cost_laws ltb add) (Hdet : deterministic succ nb).
  Context (init : S) (Hcons : consistent_from succ ltb add h init) (Hcan : cancellable ltb add h).
  Let Heqs : equivalence S eqs := decides_eq_equiv eqs Heq.
  Let Hlt : strict_weak_order C ltb := cost_laws_swo ltb add Hcost.
  Let guard (_ _ : S) : bool := true.

  Notation node := (node S A C).
  Notation n_g := (@AStar_model.n_g S A C zero).
  Notation n_f := (@AStar_model.n_f S A C zero).
  Notation neq := (@n_eq S A C eqs).
  Notation finv := (finv (@n_cmp S A C ltb zero) neq).
  Notation upds := (upds eqs ltb add zero h guard true).
  Notation le := (leb ltb).
  Notation cost := (path_cost add zero).

  Lemma in_dec_state (l : list S) t : In t l \/ ~ In t l.
  Proof.
    induction l as [|s l IH]; [auto|]. destruct (eqs s t) eqn:E; [left; left; now apply Heq|]. destruct IH as [I|I]; [left; right; exact I|]. right. intros [->|H]; auto.
    assert (eqs t t = true) by now apply Heq. congruence.
  Qed.

  Definition estimate (m : node) : C := add (n_g m) (h (n_state m)).

  (** Explored nodes do not promise more than those of the frontier. *)
  Definition inv_eff (st : search S A C P) : Prop :=
    inv_opt eqs ltb add zero h succ nb init st /\
    ((st_expl st = [Root init] /\ vec (st_front st) = [Root init]) \/
     forall m z, In m (st_expl st) -> In z (vec (st_front st)) -> le (estimate m) (n_f z)).

  Lemma upds_origin (n : node) e ts l l' : upds n e ts l l' -> forall z, In z l' -> In z l \/ exists t, In t ts /\ z = child_of add zero h n t.
  Proof.
    induction 1 as [l|t ts l l1 l2 Hu Hus IH]; intros z Hz; auto. destruct (IH z Hz) as [Hz1|(t' & Ht' & ->)]; [|right; exists t'; cbn; auto].
    destruct Hu as [? ? Hm|? ? ? ? Hm|? ? Hm|? ? ? ? ? ? ? Hm]; apply Hm in Hz1; auto.
    - destruct Hz1 as [->|Hz1]; auto. right. exists t. cbn. auto.
    - destruct Hz1 as [->|[Hz1 _]]; auto. right. exists t. cbn. auto.
  Qed.

  Lemma child_estimate (n : node) t p : reachable succ init (n_state n) -> In t (fst (succ p (n_state n))) -> le (estimate n) (n_f (child_of add zero h n t)).
  Proof.
    intros Hr Ht. destruct t as [[s a] c]. unfold estimate. cbn. apply (Hcons (n_g n) (n_state n) a c s Hr). exists p. exact Ht.
  Qed.

  Lemma le_trans' a b c : le a b -> le b c -> le a c.
  Proof. unfold leb. intros H1 H2. eapply (c_incomp _ _ _ Hcost); eauto. Qed.

  Lemma front_reachable st : inv_eff st -> forall z, In z (vec (st_front st)) -> reachable succ init (n_state z).
  Proof.
    intros [[((_ & Hc & _) & _) _] _] z Hz. rewrite Forall_forall in Hc. specialize (Hc z Hz).
    destruct z as [s|s a g f q]; [inversion Hc; subst; apply reachable_refl|]. exact (chain_reachable add zero a h succ init _ Hc).
  Qed.

  Lemma inv_eff_step st n fr fr' p :
      inv_eff st -> finv fr -> In n (vec (st_front st)) ->
      (forall y, In y (vec (st_front st)) -> le (n_f n) (n_f y)) ->
      (forall y, In y (vec (st_front st)) <-> y = n \/ In y (vec fr)) ->
      (forall y, In y (vec fr) -> neq n y = false) ->
      issol (n_state n) = false ->
      finv fr' ->
      upds n (e_insert eqs n (st_expl st)) (fst (succ (st_prop st) (n_state n))) (vec fr) (vec fr') ->
      inv_eff (Search fr' (e_insert eqs n (st_expl st)) p (n_state n :: st_queried st)).
  Proof.
    intros Hinv Hfr Hn Hmin Hmem Hne Hs Hfr' Hu. pose proof (front_reachable st Hinv n Hn) as Hrn. pose proof Hinv as [Ho Hph].
    split; [eapply (inv_opt_step eqs ltb add zero h succ issol nb Heq Hcost Hdet init Hcons Hcan st n fr); eauto|]. right. cbn [st_expl st_front].
    intros m z Hm Hz. destruct (upds_origin _ _ _ _ _ Hu z Hz) as [Hz0|(t & Ht & ->)].
    - destruct Hph as [[He Hv]|Hle].
      + exfalso. assert (Hz1 : In z (vec (st_front st))) by (apply Hmem; auto). rewrite Hv in Hn, Hz1. destruct Hn as [<-|[]], Hz1 as [<-|[]]. specialize (Hne _ Hz0). unfold n_eq in Hne. now rewrite (eqk_refl _ _ Heqs) in Hne.
      + assert (Hz1 : In z (vec (st_front st))) by (apply Hmem; auto). apply e_insert_In in Hm as [->|Hm]; [|auto].
        destruct Ho as [_ [(_ & Hv & _)|(_ & K)]].
        { rewrite Hv in Hn, Hz1. destruct Hn as [<-|[]], Hz1 as [<-|[]]. specialize (Hne _ Hz0). unfold n_eq in Hne. now rewrite (eqk_refl _ _ Heqs) in Hne. }
        pose proof (k_total _ _ _ _ _ _ _ _ _ K) as Ht. rewrite Forall_forall in Ht. specialize (Ht n Hn). unfold total_ok in Ht. unfold estimate. rewrite <- Ht. auto.
    - apply le_trans' with (estimate n); [|eapply child_estimate; eauto]. apply e_insert_In in Hm as [->|Hm]; [apply (c_irrefl _ _ _ Hcost)|].
      destruct Hph as [[He Hv]|Hle].
      + rewrite He in Hm. rewrite Hv in Hn. destruct Hn as [<-|[]], Hm as [<-|[]]. apply (c_irrefl _ _ _ Hcost).
      + destruct Ho as [_ [(He & Hv & _)|(_ & K)]].
        { rewrite He in Hm. rewrite Hv in Hn. destruct Hn as [<-|[]], Hm as [<-|[]]. apply (c_irrefl _ _ _ Hcost). }
        pose proof (k_total _ _ _ _ _ _ _ _ _ K) as Ht'. rewrite Forall_forall in Ht'. specialize (Ht' n Hn). unfold total_ok in Ht'. unfold estimate at 2. rewrite <- Ht'. auto.
  Qed.

  Lemma efficient fuel p n st :
    search_path eqs ltb add zero h succ issol guard true fuel init p = Ok (Some n, st) ->
    (forall s, In s (get_explored_states st) -> exists l, is_path succ init l s /\ le (add (cost l) (h s)) (add (n_g n) (h (n_state n))) /\
       forall l', is_path succ init l' s -> le (cost l) (cost l')) /\
    (forall l t, is_path succ init l t -> ltb (add (cost l) (h t)) (add (n_g n) (h (n_state n))) = true -> In t (get_explored_states st)).
  Proof.
    intros H. apply search_path_loop in H as (fr & Hf & Hv & H); auto.
    apply (loop_ind eqs ltb add zero h succ issol guard true Heqs Hlt inv_eff) in H.
    - destruct H as (st0 & Hinv & Hn & Hs & Hmin & E1 & _ & _). unfold get_explored_states. rewrite E1. pose proof Hinv as [[(Hsnd & _) Hph] Hle]. split.
      + intros s Hin. apply in_map_iff in Hin as (m & <- & Hm).
        assert (Hc : chain add zero h succ init m) by (destruct Hsnd as (_ & _ & Hc); rewrite Forall_forall in Hc; auto).
        assert (X : exists l, is_path succ init l (n_state m) /\ n_g m = cost l).
        { destruct m as [s|s a g f q]; [inversion Hc; subst; exists []; cbn; auto|]. destruct (chain_results add zero a h succ init _ Hc) as (l & Hl & Hg & _). exists l. auto. }
        destruct X as (l & Hl & Hg). exists l. split; auto. rewrite <- Hg. split.
        * fold (estimate m). destruct Hle as [[He Hv']|Hle].
          -- rewrite He in Hm. rewrite Hv' in Hn. destruct Hm as [<-|[]], Hn as [<-|[]]. apply (c_irrefl _ _ _ Hcost).
          -- destruct Hph as [(He & Hv' & _)|(_ & K)]; [rewrite He in Hm; rewrite Hv' in Hn; destruct Hm as [<-|[]], Hn as [<-|[]]; apply (c_irrefl _ _ _ Hcost)|].
             pose proof (k_total _ _ _ _ _ _ _ _ _ K) as Ht. rewrite Forall_forall in Ht. specialize (Ht n Hn). unfold total_ok in Ht. rewrite <- Ht. auto.
        * intros l' Hl'. destruct Hph as [(He & _)|(_ & K)]; [|now apply (k_opt _ _ _ _ _ _ _ _ _ K)].
          rewrite He in Hm. destruct Hm as [<-|[]]. cbn. eapply (root_optimal ltb add zero h succ); eauto.
      + intros l t Hl Hb. destruct (in_dec_state (map n_state (st_expl st0)) t) as [Hin|Hno]; auto. exfalso.
        assert (Hno' : forall m, In m (st_expl st0) -> n_state m <> t) by (intros m Hm E; apply Hno; rewrite <- E; now apply in_map).
        assert (Hc : le (add (n_g n) (h (n_state n))) (add (cost l) (h t))); [|unfold leb in Hc; congruence].
        destruct Hph as [(He & Hv' & _)|(_ & K)].
        * rewrite Hv' in Hn. destruct Hn as [<-|[]]. apply (consistent_path ltb add h succ Hcost init Hcons l init t zero (reachable_refl succ init) Hl).
        * destruct (k_root _ _ _ _ _ _ _ _ _ K) as (r & Hr & Hrs). destruct (path_leaves ltb add zero h succ nb Hcost Hdet init Hcons _ _ K l [] r t) as (z & Hz & Hzf); auto; [cbn; auto|now rewrite Hrs|].
          cbn [app] in Hzf. pose proof (k_total _ _ _ _ _ _ _ _ _ K) as Htot. rewrite Forall_forall in Htot. specialize (Hmin z Hz). rewrite (Htot n Hn) in Hmin. eapply le_trans'; eauto.
    - intros st0 [[((Hfi & _) & _) _] _]. exact Hfi.
    - intros st0 n0 fr0 fr1 p0 ? ? ? ? ? ? ? ? ?. eapply (inv_eff_step st0 n0 fr0); eauto.
    - split; [now apply inv_opt_init|]. left. auto.
  Qed.
End Efficient.
