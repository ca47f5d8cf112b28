(** Proofs about the A* model. *)
From Verif Require Import Base Frontier_model Frontier_spec Frontier_proofs AStar_model AStar_spec.
From Coq Require Import ZifyBool ZifyNat Permutation.

Section Paths.
  Context {S A C P : Type} (succ : P -> S -> list (S * A * C) * P).

  Lemma is_path_app l1 : forall s l2 t, is_path succ s (l1 ++ l2) t <->
    exists u, is_path succ s l1 u /\ is_path succ u l2 t.
  Proof.
    induction l1 as [|e l1 IH]; intros s l2 t; cbn [app is_path].
    - split; [intros H; exists s; auto | intros (u & -> & H); auto].
    - rewrite IH. split.
      + intros (H1 & u & H2 & H3). exists u. auto.
      + intros (u & (H1 & H2) & H3). split; auto. exists u. auto.
  Qed.

  Lemma path_cost_app (add : C -> C -> C) (zero : C) (l1 l2 : list (step S A C)) :
    path_cost add zero (l1 ++ l2) = path_cost add (path_cost add zero l1) l2.
  Proof. unfold path_cost. apply fold_left_app. Qed.

  Lemma reachable_refl s : reachable succ s s.
  Proof. now exists []. Qed.

  Lemma reachable_step s t a c u : reachable succ s t -> trans succ t a c u -> reachable succ s u.
  Proof.
    intros [l Hl] Ht. exists (l ++ [(a, c, u)]). apply is_path_app. exists t. split; auto. cbn. auto.
  Qed.
End Paths.

Section Proofs.
  Context {S A C P : Type}.
  Context (eqs : S -> S -> bool) (ltb : C -> C -> bool) (add : C -> C -> C) (zero : C) (dflt : A).
  Context (h : S -> C) (succ : P -> S -> list (S * A * C) * P) (issol : S -> bool)
          (guard : S -> S -> bool) (graph : bool).
  Context (Heqs : equivalence S eqs) (Hlt : strict_weak_order C ltb).

  Notation node := (node S A C).
  Notation n_g := (@AStar_model.n_g S A C zero).
  Notation n_f := (@AStar_model.n_f S A C zero).
  Notation cmp := (@n_cmp S A C ltb zero).
  Notation neq := (@n_eq S A C eqs).
  Notation finv := (finv cmp neq).

  Lemma n_cmp_swo : strict_weak_order node cmp.
  Proof.
    destruct Hlt as [H1 H2 H3]. unfold n_cmp. split.
    - intros x. apply H1.
    - intros x y z Hxy Hyz. eapply H2; eauto.
    - intros x y z Hxy Hyz. eapply H3; eauto.
  Qed.
  Lemma n_eq_equiv : equivalence node neq.
  Proof.
    destruct Heqs as [H1 H2 H3]. unfold n_eq. split; intros; eauto.
  Qed.
  Hint Resolve n_cmp_swo n_eq_equiv : core.

  (** ** Membership view of the frontier operations *)
  Lemma push_new x fr : finv fr -> find (neq x) (vec fr) = None ->
    exists fr', f_push cmp neq x fr = Ok ((x, true), fr') /\ finv fr' /\
      forall y, In y (vec fr') <-> y = x \/ In y (vec fr).
  Proof.
    intros Hi Hn. pose proof (f_push_spec cmp neq n_cmp_swo n_eq_equiv x fr Hi) as H. rewrite Hn in H.
    destruct H as (fr' & H & Hi' & Hv). exists fr'. split; [exact H|]. split; [exact Hi'|].
    intros y. split.
    - rewrite Hv. intros Hy. apply (Permutation_in _ (s_insert_perm cmp x (vec fr))) in Hy.
      destruct Hy; auto.
    - rewrite Hv. intros Hy. apply (Permutation_in _ (Permutation_sym (s_insert_perm cmp x (vec fr)))).
      destruct Hy; [left|right]; auto.
  Qed.

  Lemma remove_old x y fr : finv fr -> find (neq x) (vec fr) = Some y ->
    exists fr', f_remove cmp neq x fr = Ok (1, fr') /\ finv fr' /\
      forall z, In z (vec fr') <-> In z (vec fr) /\ neq x z = false.
  Proof.
    intros Hi Hn. pose proof (f_remove_spec cmp neq n_cmp_swo n_eq_equiv x fr Hi) as H. rewrite Hn in H.
    destruct H as (fr' & H & Hi' & Hv). exists fr'. split; [exact H|]. split; [exact Hi'|].
    intros z. split.
    - rewrite Hv. intros H0. apply filter_In in H0 as [H0 H1]. split; auto. now destruct (neq x z).
    - intros [H1 H2]. rewrite Hv. apply filter_In. rewrite H2. auto.
  Qed.

  Lemma pop_some fr : finv fr -> f_is_empty fr = false ->
    exists n fr', f_pop neq fr = Ok (n, fr') /\ finv fr' /\ In n (vec fr) /\
      (forall y, In y (vec fr) -> leb ltb (n_f n) (n_f y)) /\
      (forall y, In y (vec fr) <-> y = n \/ In y (vec fr')) /\
      (forall y, In y (vec fr') -> neq n y = false).
  Proof.
    intros Hi He. pose proof (f_pop_spec cmp neq n_eq_equiv fr Hi) as H.
    destruct (rev (vec fr)) as [|x r] eqn:E.
    { assert (vec fr = []) by (rewrite <- (rev_involutive (vec fr)), E; reflexivity).
      unfold f_is_empty in He. rewrite H0 in He. discriminate. }
    assert (Hv : vec fr = rev r ++ [x]) by (rewrite <- (rev_involutive (vec fr)), E; reflexivity).
    destruct H as (fr' & H & Hi' & Hv'). exists x, fr'.
    split; [exact H|]. split; [exact Hi'|]. split; [rewrite Hv; apply in_or_app; cbn; auto|].
    split; [|split].
    - intros y Hy. apply (s_top_max cmp neq n_cmp_swo (vec fr) x r); auto. split; apply Hi.
    - intros y. rewrite Hv, Hv', in_app_iff. cbn. intuition.
    - intros y Hy. destruct Hi as (_ & Hd & _). rewrite Hv in Hd. rewrite Hv' in Hy.
      apply FOP_app in Hd as (_ & _ & Hd). apply (eqk_false_sym neq n_eq_equiv). apply Hd; cbn; auto.
  Qed.

  Lemma is_empty_true fr : f_is_empty (T:=node) fr = true -> vec fr = [].
  Proof. unfold f_is_empty. now destruct (vec fr). Qed.

  Lemma find_none_iff x l : find (neq x) l = None <-> forall y, In y l -> neq x y = false.
  Proof.
    split; [intros H y; apply (find_none _ _ H)|].
    intros H. destruct (find (neq x) l) eqn:E; auto. apply find_some in E as [E1 E2].
    rewrite (H _ E1) in E2. discriminate.
  Qed.

  Definition child_of (n : node) (t : S * A * C) : node :=
    let '(cs, a, c) := t in Child cs a (add (n_g n) c) (add (add (n_g n) c) (h cs)) n.

  Lemma child_state n t : n_state (child_of n t) = fst (fst t).
  Proof. now destruct t as [[s a] c]. Qed.

  (** The three possible effects of processing one neighbour. *)
  Inductive upd (n : node) (e : list node) (t : S * A * C) (l l' : list node) : Prop :=
  | upd_skip_explored : graph = true -> e_contains eqs (child_of n t) e = true ->
      (forall y, In y l' <-> In y l) -> upd n e t l l'
  | upd_skip_frontier fn : In fn l -> neq (child_of n t) fn = true ->
      (graph = true -> guard (n_state fn) (n_state (child_of n t)) = false \/
                       ltb (n_f (child_of n t)) (n_f fn) = false) ->
      (forall y, In y l' <-> In y l) -> upd n e t l l'
  | upd_new : (forall y, In y l -> neq (child_of n t) y = false) ->
      (graph = true -> e_contains eqs (child_of n t) e = false) ->
      (forall y, In y l' <-> y = child_of n t \/ In y l) -> upd n e t l l'
  | upd_better fn : graph = true -> In fn l -> neq (child_of n t) fn = true ->
      guard (n_state fn) (n_state (child_of n t)) = true -> ltb (n_f (child_of n t)) (n_f fn) = true ->
      (forall y, In y l -> neq (child_of n t) y = true -> y = fn) ->
      (forall y, In y l' <-> y = child_of n t \/ (In y l /\ neq (child_of n t) y = false)) ->
      upd n e t l l'.

  Lemma expand_one_upd n e fr t : finv fr ->
    exists fr', expand_one eqs ltb add zero h guard graph n e fr t = Ok fr' /\ finv fr' /\ upd n e t (vec fr) (vec fr').
  Proof.
    intros Hi. unfold expand_one. destruct t as [[cs a] c] eqn:Et.
    change (Child cs a (add (n_g n) c) (add (add (n_g n) c) (h cs)) n) with (child_of n (cs, a, c)).
    rewrite <- Et. set (ch := child_of n t). destruct graph eqn:Eg.
    - unfold f_find. rewrite (set_find_vec cmp neq n_eq_equiv) by auto.
      destruct (find (neq ch) (vec fr)) as [fn|] eqn:Ef.
      + apply find_some in Ef as Ef'. destruct Ef' as [Hin Heq']. unfold shortcut.
        destruct (guard (n_state fn) (n_state ch)) eqn:Egd.
        * destruct (ltb (n_f ch) (n_f fn)) eqn:El.
          -- destruct (remove_old fn fn fr) as (fr1 & Hr & Hi1 & Hm1); auto.
             { apply (find_In_eq neq n_eq_equiv); auto; [apply Hi|apply (eqk_refl _ _ n_eq_equiv)]. }
             assert (Hm1' : forall z, In z (vec fr1) <-> In z (vec fr) /\ neq ch z = false).
             { intros z. rewrite Hm1. split; intros [H1 H2]; split; auto.
               - destruct (neq ch z) eqn:E; auto. rewrite <- H2. symmetry.
                 eapply (eqk_trans _ _ n_eq_equiv); [apply (eqk_sym _ _ n_eq_equiv)|]; eauto.
               - destruct (neq fn z) eqn:E; auto. rewrite <- H2. symmetry.
                 eapply (eqk_trans _ _ n_eq_equiv); eauto. }
             rewrite Hr. cbn [bind].
             destruct (push_new ch fr1) as (fr2 & Hp & Hi2 & Hm2); auto.
             { apply find_none_iff. intros y Hy. now apply Hm1' in Hy. }
             rewrite Hp. cbn [bind]. exists fr2. split; [reflexivity|]. split; [exact Hi2|].
             eapply (upd_better n e t _ _ fn); auto.
             { intros y Hy Hey. assert (Hfy : find (neq ch) (vec fr) = Some y)
                 by (apply (find_In_eq neq n_eq_equiv); auto; apply Hi).
               rewrite Ef in Hfy. now injection Hfy. }
             intros y. rewrite Hm2, Hm1'. reflexivity.
          -- exists fr. split; [reflexivity|]. split; auto. eapply (upd_skip_frontier n e t _ _ fn); auto. easy.
        * exists fr. split; [reflexivity|]. split; auto. eapply (upd_skip_frontier n e t _ _ fn); auto. easy.
      + destruct (e_contains eqs ch e) eqn:Ee.
        * exists fr. split; [reflexivity|]. split; auto. apply upd_skip_explored; auto. easy.
        * destruct (push_new ch fr) as (fr1 & Hp & Hi1 & Hm1); auto. rewrite Hp. cbn [bind].
          exists fr1. split; [reflexivity|]. split; auto. apply upd_new; auto.
          now apply find_none_iff.
    - destruct (find (neq ch) (vec fr)) as [fn|] eqn:Ef.
      + pose proof (f_push_spec cmp neq n_cmp_swo n_eq_equiv ch fr Hi) as H. rewrite Ef in H.
        rewrite H. cbn [bind]. apply find_some in Ef as Ef'. destruct Ef' as [Hin Heq'].
        exists fr. split; [reflexivity|]. split; auto. eapply (upd_skip_frontier n e t _ _ fn); auto.
        * intros; congruence.
        * easy.
      + destruct (push_new ch fr) as (fr1 & Hp & Hi1 & Hm1); auto. rewrite Hp. cbn [bind].
        exists fr1. split; [reflexivity|]. split; auto. apply upd_new; auto.
        * now apply find_none_iff.
        * intros; congruence.
  Qed.

  Inductive upds (n : node) (e : list node) : list (S * A * C) -> list node -> list node -> Prop :=
  | upds_nil l : upds n e [] l l
  | upds_cons t ts l l1 l2 : upd n e t l l1 -> upds n e ts l1 l2 -> upds n e (t :: ts) l l2.

  Lemma expand_all_upds n e ts : forall fr, finv fr ->
    exists fr', expand_all eqs ltb add zero h guard graph n e fr ts = Ok fr' /\ finv fr' /\ upds n e ts (vec fr) (vec fr').
  Proof.
    induction ts as [|t ts IH]; intros fr Hi; cbn [expand_all].
    - exists fr. repeat split; try apply Hi. constructor.
    - destruct (expand_one_upd n e fr t Hi) as (fr1 & H1 & Hi1 & Hu1). rewrite H1. cbn [bind].
      destruct (IH fr1 Hi1) as (fr2 & H2 & Hi2 & Hu2). exists fr2. split; [exact H2|]. split; auto.
      econstructor; eauto.
  Qed.

  Lemma expand_upds n st : finv (st_front st) ->
    exists fr p, expand eqs ltb add zero h succ guard graph n st
                 = Ok (Search fr (e_insert eqs n (st_expl st)) p (n_state n :: st_queried st)) /\
      finv fr /\ upds n (e_insert eqs n (st_expl st)) (fst (succ (st_prop st) (n_state n)))
                      (vec (st_front st)) (vec fr).
  Proof.
    intros Hi. unfold expand. destruct (succ (st_prop st) (n_state n)) as [ts p] eqn:E. cbn [fst].
    destruct (expand_all_upds n (e_insert eqs n (st_expl st)) ts (st_front st) Hi) as (fr & H & Hi' & Hu).
    rewrite H. cbn [bind]. exists fr, p. auto.
  Qed.

  Lemma init_search_ok init (p : P) :
    exists fr, init_search eqs ltb zero init p = Ok (Search fr [Root init] p []) /\ finv fr /\ vec fr = [@Root S A C init].
  Proof.
    unfold init_search.
    pose proof (f_push_spec cmp neq n_cmp_swo n_eq_equiv (Root init) f_empty (finv_empty cmp neq)) as H.
    cbn [f_empty vec find] in H. destruct H as (fr & H & Hi & Hv). rewrite H. cbn [bind].
    exists fr. split; [reflexivity|]. split; auto.
  Qed.

  Lemma e_insert_In (n : node) e m : In m (e_insert eqs n e) -> m = n \/ In m e.
  Proof.
    unfold e_insert. destruct (e_contains eqs n e); [auto|].
    intros [<-|H]; auto.
  Qed.

  Lemma e_contains_iff (n : node) e : e_contains eqs n e = true <-> exists m, In m e /\ neq m n = true.
  Proof. unfold e_contains. rewrite existsb_exists. reflexivity. Qed.

  Lemma e_contains_false (n : node) e : e_contains eqs n e = false <-> forall m, In m e -> neq m n = false.
  Proof.
    split.
    - intros H m Hm. destruct (neq m n) eqn:E; auto.
      enough (e_contains eqs n e = true) by congruence. apply e_contains_iff. eauto.
    - intros H. destruct (e_contains eqs n e) eqn:E; auto. apply e_contains_iff in E as (m & H1 & H2).
      rewrite H in H2 by auto. discriminate.
  Qed.

  (** ** Induction over the loop *)
  Section LoopInduction.
    Variable I : search S A C P -> Prop.
    Hypothesis I_finv : forall st, I st -> finv (st_front st).
    Hypothesis I_step : forall st n fr fr' p,
      I st -> finv fr -> In n (vec (st_front st)) ->
      (forall y, In y (vec (st_front st)) -> leb ltb (n_f n) (n_f y)) ->
      (forall y, In y (vec (st_front st)) <-> y = n \/ In y (vec fr)) ->
      (forall y, In y (vec fr) -> neq n y = false) ->
      issol (n_state n) = false ->
      finv fr' ->
      upds n (e_insert eqs n (st_expl st)) (fst (succ (st_prop st) (n_state n))) (vec fr) (vec fr') ->
      I (Search fr' (e_insert eqs n (st_expl st)) p (n_state n :: st_queried st)).

    Lemma loop_ind fuel : forall st r st', I st ->
      search_loop eqs ltb add zero h succ issol guard graph fuel st = Ok (r, st') ->
      exists st0, I st0 /\
        match r with
        | None => vec (st_front st0) = [] /\ st' = st0
        | Some n => In n (vec (st_front st0)) /\ issol (n_state n) = true /\
                    (forall y, In y (vec (st_front st0)) -> leb ltb (n_f n) (n_f y)) /\
                    st_expl st' = st_expl st0 /\ st_queried st' = st_queried st0 /\
                    (forall y, In y (vec (st_front st0)) <-> y = n \/ In y (vec (st_front st'))) 
        end.
    Proof.
      induction fuel as [|fuel IH]; intros st r st' Hst H; [discriminate|].
      cbn [search_loop] in H. destruct (f_is_empty (st_front st)) eqn:Ee.
      - injection H as <- <-. exists st. split; auto. split; auto. now apply is_empty_true.
      - destruct (pop_some (st_front st)) as (n & fr & Hp & Hfr & Hn & Hmin & Hmem & Hne); auto.
        rewrite Hp in H. cbn [bind] in H. destruct (issol (n_state n)) eqn:Es.
        + injection H as <- <-. exists st. cbn [st_front st_expl st_queried].
          split; [exact Hst|]. split; [exact Hn|]. split; [exact Es|]. auto.
        + destruct (expand_upds n (Search fr (st_expl st) (st_prop st) (st_queried st))) as (fr' & p & He & Hfr' & Hu); auto.
          rewrite He in H. cbn [bind st_expl st_queried st_front st_prop] in *.
          eapply IH; [|exact H]. eapply (I_step st n fr); eauto.
    Qed.

    Lemma loop_no_ub fuel : forall st, I st ->
      match search_loop eqs ltb add zero h succ issol guard graph fuel st with
      | Ok _ => True | NoFuel => True | UB => False | Throw => False end.
    Proof.
      induction fuel as [|fuel IH]; intros st Hst; cbn [search_loop]; auto.
      destruct (f_is_empty (st_front st)) eqn:Ee; auto.
      destruct (pop_some (st_front st)) as (n & fr & Hp & Hfr & Hn & Hmin & Hmem & Hne); auto.
      rewrite Hp. cbn [bind]. destruct (issol (n_state n)) eqn:Es; auto.
      destruct (expand_upds n (Search fr (st_expl st) (st_prop st) (st_queried st))) as (fr' & p & He & Hfr' & Hu); auto.
      rewrite He. cbn [bind st_expl st_queried st_front st_prop] in *.
      apply IH. eapply (I_step st n fr); eauto.
    Qed.
  End LoopInduction.

  (** The search never has undefined behaviour. *)
  Lemma search_no_ub fuel init p :
    match search_path eqs ltb add zero h succ issol guard graph fuel init p with
    | Ok _ => True | NoFuel => True | UB => False | Throw => False end.
  Proof.
    unfold search_path. destruct (init_search_ok init p) as (fr & Hi & Hf & Hv). rewrite Hi. cbn [bind].
    apply (loop_no_ub (fun st => finv (st_front st))); auto.
  Qed.

  (** ** Soundness: every node is a chain of transitions *)
  Inductive chain (init : S) : node -> Prop :=
  | chain_root : chain init (Root init)
  | chain_child n a c t : chain init n -> trans succ (n_state n) a c t ->
      chain init (child_of n (t, a, c)).

  Lemma upds_chain init n e ts l l' : chain init n ->
    (forall t, In t ts -> trans succ (n_state n) (snd (fst t)) (snd t) (fst (fst t))) ->
    upds n e ts l l' -> Forall (chain init) l -> Forall (chain init) l'.
  Proof.
    intros Hn Hts Hu. induction Hu as [l|t ts l l1 l2 Hu Hus IH]; intros Hl; auto.
    apply IH; [intros t' Ht'; apply Hts; now right|].
    assert (Hch : chain init (child_of n t)).
    { specialize (Hts t (or_introl eq_refl)). destruct t as [[s a] c]. now constructor. }
    rewrite Forall_forall in *. intros y Hy. destruct Hu as [? ? Hm|? ? ? ? Hm|? ? Hm|? ? ? ? ? ? ? Hm]; apply Hm in Hy.
    - auto.
    - auto.
    - destruct Hy as [->|Hy]; auto.
    - destruct Hy as [->|[Hy _]]; auto.
  Qed.

  Lemma trans_In p s t : In t (fst (succ p s)) -> trans succ s (snd (fst t)) (snd t) (fst (fst t)).
  Proof. destruct t as [[u a] c]. cbn. intros H. now exists p. Qed.

  Definition inv_sound init (st : search S A C P) : Prop :=
    finv (st_front st) /\ Forall (chain init) (vec (st_front st)) /\ Forall (chain init) (st_expl st).

  Lemma inv_sound_step init st n fr fr' p :
      inv_sound init st -> finv fr -> In n (vec (st_front st)) ->
      (forall y, In y (vec (st_front st)) -> leb ltb (n_f n) (n_f y)) ->
      (forall y, In y (vec (st_front st)) <-> y = n \/ In y (vec fr)) ->
      (forall y, In y (vec fr) -> neq n y = false) ->
      issol (n_state n) = false ->
      finv fr' ->
      upds n (e_insert eqs n (st_expl st)) (fst (succ (st_prop st) (n_state n))) (vec fr) (vec fr') ->
      inv_sound init (Search fr' (e_insert eqs n (st_expl st)) p (n_state n :: st_queried st)).
  Proof.
    intros (Hf & Hc & He) Hfr Hn Hmin Hmem Hne Hs Hfr' Hu.
    assert (Hcn : chain init n) by (eapply Forall_forall in Hc; eauto).
    split; [exact Hfr'|]. cbn [st_front st_expl]. split.
    - eapply upds_chain; eauto; [intros t; apply trans_In|].
      rewrite Forall_forall in *. intros y Hy. apply Hc, Hmem. auto.
    - rewrite Forall_forall in *. intros m Hm. apply e_insert_In in Hm as [->|Hm]; auto.
  Qed.

  Lemma inv_sound_init init p fr : finv fr -> vec fr = [Root init] ->
    inv_sound init (Search fr [Root init] p []).
  Proof.
    intros Hf Hv. split; [exact Hf|]. cbn. rewrite Hv. split; constructor; constructor.
  Qed.

  Lemma search_path_loop fuel init p r st : search_path eqs ltb add zero h succ issol guard graph fuel init p = Ok (r, st) ->
    exists fr, finv fr /\ vec fr = [Root init] /\
      search_loop eqs ltb add zero h succ issol guard graph fuel (Search fr [Root init] p []) = Ok (r, st).
  Proof.
    unfold search_path. destruct (init_search_ok init p) as (fr & Hi & Hf & Hv). rewrite Hi. cbn [bind].
    intros H. eauto.
  Qed.

  Lemma search_chain fuel init p n st :
    search_path eqs ltb add zero h succ issol guard graph fuel init p = Ok (Some n, st) ->
    chain init n /\ issol (n_state n) = true.
  Proof.
    intros H. apply search_path_loop in H as (fr & Hf & Hv & H).
    apply (loop_ind (inv_sound init)) in H.
    - destruct H as (st0 & (_ & Hc & _) & Hn & Hs & _). split; auto. eapply Forall_forall in Hc; eauto.
    - intros st0 Hst0. apply Hst0.
    - intros st0 n0 fr0 fr1 p0 ? ? ? ? ? ? ? ? ?. eapply (inv_sound_step init st0 n0 fr0); eauto.
    - now apply inv_sound_init.
  Qed.

  (** Reading results off a chain *)
  Lemma fill_back_chain {B} (get : node -> B) : forall n acc,
    fill_back get (n_depth n) (Some n) acc =
    match n with
    | Root _ => Ok acc
    | Child _ _ _ _ p => fill_back get (n_depth p) (Some p) (get n :: acc)
    end.
  Proof. intros [s|s a g f p] acc; reflexivity. Qed.

  Lemma fill_back_depth {B} (get : node -> B) : forall n acc,
    exists l root, fill_back get (n_depth n) (Some n) acc = Ok (l ++ acc) /\
      fill_back get (Datatypes.S (n_depth n)) (Some n) acc = Ok (get root :: l ++ acc).
  Proof.
    induction n as [s|s a g f p IH]; intros acc.
    - exists [], (Root s). split; reflexivity.
    - cbn [n_depth]. destruct (IH (get (Child s a g f p) :: acc)) as (l & root & H1 & H2).
      exists (l ++ [get (Child s a g f p)]), root. cbn [fill_back n_parent] in *.
      rewrite <- app_assoc. cbn [app]. split; [exact H1|exact H2].
  Qed.

  Lemma chain_results init n : chain init n ->
    exists l, is_path succ init l (n_state n) /\ n_g n = path_cost add zero l /\
      (forall acc, fill_back n_state (Datatypes.S (n_depth n)) (Some n) acc = Ok (path_states init l ++ acc)) /\
      (forall acc, fill_back (n_action dflt) (n_depth n) (Some n) acc = Ok (path_actions l ++ acc)).
  Proof.
    induction 1 as [|n a c t Hn (l & Hp & Hg & Hs & Ha) Ht].
    - exists []. cbn. auto.
    - exists (l ++ [(a, c, t)]). split; [|split; [|split]].
      + apply is_path_app. exists (n_state n). cbn. auto.
      + rewrite path_cost_app. cbn [child_of AStar_model.n_g path_cost fold_left step_cost fst snd].
        now rewrite Hg.
      + intros acc. transitivity (fill_back n_state (Datatypes.S (n_depth n)) (Some n) (t :: acc)); [reflexivity|].
        rewrite Hs. unfold path_states. rewrite map_app. cbn [map app step_state snd].
        rewrite <- app_assoc. reflexivity.
      + intros acc. transitivity (fill_back (n_action dflt) (n_depth n) (Some n) (a :: acc)); [reflexivity|].
        rewrite Ha. unfold path_actions. rewrite map_app. cbn [map app step_action fst snd].
        rewrite <- app_assoc. reflexivity.
  Qed.

  Lemma search_sound fuel init p n st :
    search_path eqs ltb add zero h succ issol guard graph fuel init p = Ok (Some n, st) ->
    exists l, is_path succ init l (n_state n) /\ issol (n_state n) = true /\
      get_path (Some n) = Ok (path_states init l) /\
      get_actions dflt (Some n) = Ok (path_actions l) /\
      get_optimal_cost zero (Some n) = Some (path_cost add zero l).
  Proof.
    intros H. apply search_chain in H as [Hc Hs].
    destruct (chain_results init n Hc) as (l & Hp & Hg & H1 & H2). exists l.
    split; [exact Hp|]. split; [exact Hs|]. unfold get_path, get_actions, get_optimal_cost.
    rewrite H1, H2, !app_nil_r. rewrite Hg. auto.
  Qed.

  Lemma chain_reachable init n : chain init n -> reachable succ init (n_state n).
  Proof. intros H. destruct (chain_results init n H) as (l & Hp & _). now exists l. Qed.

  (** ** Each state is expanded once; termination (graph search) *)
  Definition distinct_states (l : list S) : Prop := ForallOrdPairs (fun a b => eqs a b = false) l.

  Definition inv_once init (st : search S A C P) : Prop :=
    inv_sound init st /\ distinct_states (map n_state (st_expl st)) /\
    ((st_queried st = [] /\ st_expl st = [Root init] /\ vec (st_front st) = [Root init]) \/
     (st_queried st = map n_state (st_expl st) /\
      forall y, In y (vec (st_front st)) -> e_contains eqs y (st_expl st) = false)).

  Lemma upds_disjoint n e ts l l' : graph = true -> upds n e ts l l' ->
    (forall y, In y l -> e_contains eqs y e = false) -> (forall y, In y l' -> e_contains eqs y e = false).
  Proof.
    intros Hg. induction 1 as [l|t ts l l1 l2 Hu Hus IH]; intros Hl; auto.
    apply IH. intros y Hy. destruct Hu as [? ? Hm|? ? ? ? Hm|? ? Hm|fn ? Hin Heq ? ? ? Hm]; apply Hm in Hy.
    - auto.
    - auto.
    - destruct Hy as [->|Hy]; auto.
    - destruct Hy as [->|[Hy _]]; auto. apply e_contains_false. intros m Hm'.
      destruct (neq m (child_of n t)) eqn:E; auto.
      specialize (Hl fn Hin). rewrite e_contains_false in Hl. specialize (Hl m Hm').
      rewrite <- Hl. symmetry. eapply (eqk_trans _ _ n_eq_equiv); eauto.
  Qed.

  Lemma inv_once_step init : graph = true -> forall st n fr fr' p,
      inv_once init st -> finv fr -> In n (vec (st_front st)) ->
      (forall y, In y (vec (st_front st)) -> leb ltb (n_f n) (n_f y)) ->
      (forall y, In y (vec (st_front st)) <-> y = n \/ In y (vec fr)) ->
      (forall y, In y (vec fr) -> neq n y = false) ->
      issol (n_state n) = false ->
      finv fr' ->
      upds n (e_insert eqs n (st_expl st)) (fst (succ (st_prop st) (n_state n))) (vec fr) (vec fr') ->
      inv_once init (Search fr' (e_insert eqs n (st_expl st)) p (n_state n :: st_queried st)).
  Proof.
    intros Hg st n fr fr' p (Hsd & Hd & Hph) Hfr Hn Hmin Hmem Hne Hs Hfr' Hu.
    split; [eapply (inv_sound_step init st n fr); eauto|]. cbn [st_expl st_queried st_front].
    destruct Hph as [(Hq & He & Hv)|[Hq Hdis]].
    - rewrite Hv in Hn. destruct Hn as [<-|[]]. rewrite He in *.
      assert (Hins : e_insert eqs (Root init) [Root init] = [@Root S A C init]).
      { unfold e_insert, e_contains, n_eq. cbn. now rewrite (eqk_refl _ _ Heqs). }
      rewrite Hins in *. rewrite Hq. split; [exact Hd|]. right. split; [reflexivity|].
      eapply upds_disjoint; eauto. intros y Hy. apply e_contains_false. intros m [<-|[]]. auto.
    - assert (Hins : e_insert eqs n (st_expl st) = n :: st_expl st).
      { unfold e_insert. now rewrite Hdis. }
      rewrite Hins in *. split.
      + cbn [map]. constructor; auto. apply Forall_forall. intros s Hs'. apply in_map_iff in Hs' as (m & <- & Hm).
        specialize (Hdis n Hn). rewrite e_contains_false in Hdis.
        apply (eqk_false_sym eqs Heqs). apply (Hdis m Hm).
      + right. rewrite Hq. split; [reflexivity|]. eapply upds_disjoint; eauto.
        intros y Hy. apply e_contains_false. intros m [<-|Hm]; auto.
        assert (Hy' : In y (vec (st_front st))) by (apply Hmem; auto).
        specialize (Hdis y Hy'). rewrite e_contains_false in Hdis. auto.
  Qed.

  Lemma inv_once_init init p fr : finv fr -> vec fr = [Root init] ->
    inv_once init (Search fr [Root init] p []).
  Proof.
    intros Hf Hv. split; [now apply inv_sound_init|]. cbn. split; [constructor; constructor|]. left. auto.
  Qed.

  Lemma inv_once_queried init st : inv_once init st -> distinct_states (st_queried st).
  Proof. intros (_ & Hd & [(-> & _)|[-> _]]); auto. constructor. Qed.

  Lemma search_queries_once fuel init p r st : graph = true ->
    search_path eqs ltb add zero h succ issol guard graph fuel init p = Ok (r, st) ->
    distinct_states (st_queried st).
  Proof.
    intros Hg H. apply search_path_loop in H as (fr & Hf & Hv & H).
    apply (loop_ind (inv_once init)) in H.
    - destruct H as (st0 & Hinv & Hr). apply inv_once_queried in Hinv. destruct r as [n|].
      + destruct Hr as (_ & _ & _ & _ & -> & _). auto.
      + destruct Hr as [_ ->]. auto.
    - intros st0 Hst0. apply Hst0.
    - intros st0 n0 fr0 fr1 p0 ? ? ? ? ? ? ? ? ?. eapply (inv_once_step init Hg st0 n0 fr0); eauto.
    - now apply inv_once_init.
  Qed.

  Lemma pigeonhole (K : list S) : forall l, distinct_states l ->
    (forall s, In s l -> exists k, In k K /\ eqs s k = true) -> length l <= length K.
  Proof.
    induction K as [|k K IH]; intros l Hd Hk.
    - destruct l as [|s l]; auto. destruct (Hk s (or_introl eq_refl)) as (k & [] & _).
    - assert (Hsplit : length l <= Datatypes.S (length (filter (fun s => negb (eqs s k)) l))).
      { clear IH Hk. induction Hd as [|s l Hf Hp IH']; cbn [filter length]; [lia|].
        destruct (eqs s k) eqn:E; cbn [negb length]; [|lia].
        enough (Hfl : filter (fun s => negb (eqs s k)) l = l) by (rewrite Hfl; lia).
        clear IH' Hp. induction Hf as [|t l Ht Hf IHf]; cbn [filter]; auto.
        destruct (eqs t k) eqn:E2; cbn [negb]; [|now rewrite IHf]. exfalso.
        enough (eqs s t = true) by congruence. eapply (eqk_trans _ _ Heqs); eauto.
        apply (eqk_sym _ _ Heqs). auto. }
      specialize (IH (filter (fun s => negb (eqs s k)) l)). cbn [length].
      enough (length (filter (fun s => negb (eqs s k)) l) <= length K) by lia.
      apply IH; [now apply FOP_filter|].
      intros s Hs. apply filter_In in Hs as [Hs Hn]. destruct (Hk s Hs) as (k' & [->|Hk'] & He); eauto.
      rewrite He in Hn. discriminate.
  Qed.

  Lemma inv_once_bound init st K : finitely_reachable succ eqs init K -> inv_once init st ->
    length (st_queried st) <= length K.
  Proof.
    intros HK Hinv. apply pigeonhole; [eapply inv_once_queried; eauto|].
    destruct Hinv as ((_ & _ & He) & _ & [(-> & _)|[-> _]]); [easy|].
    intros s Hs. apply in_map_iff in Hs as (m & <- & Hm). apply HK. apply chain_reachable.
    eapply Forall_forall in He; eauto.
  Qed.

  Lemma search_terminates init K : graph = true -> finitely_reachable succ eqs init K ->
    forall fuel p, length K < fuel ->
    exists r st, search_path eqs ltb add zero h succ issol guard graph fuel init p = Ok (r, st) /\
      length (st_queried st) <= length K.
  Proof.
    intros Hg HK fuel p Hfuel. unfold search_path.
    destruct (init_search_ok init p) as (fr0 & Hi & Hf & Hv). rewrite Hi. cbn [bind].
    assert (Hgen : forall fuel st, inv_once init st -> length K < length (st_queried st) + fuel ->
      exists r st', search_loop eqs ltb add zero h succ issol guard graph fuel st = Ok (r, st') /\
        length (st_queried st') <= length K).
    { clear fuel Hfuel. induction fuel as [|fuel IH]; intros st Hst Hl.
      - pose proof (inv_once_bound _ _ _ HK Hst). lia.
      - cbn [search_loop]. destruct (f_is_empty (st_front st)) eqn:Ee.
        { exists None, st. split; auto. eapply inv_once_bound; eauto. }
        destruct (pop_some (st_front st)) as (n & fr & Hp & Hfr & Hn & Hmin & Hmem & Hne); auto.
        { apply Hst. }
        rewrite Hp. cbn [bind]. destruct (issol (n_state n)) eqn:Es.
        { eexists _, _. split; [reflexivity|]. cbn. eapply inv_once_bound; eauto. }
        destruct (expand_upds n (Search fr (st_expl st) (st_prop st) (st_queried st))) as (fr' & p' & He & Hfr' & Hu); auto.
        rewrite He. cbn [bind st_expl st_queried st_front st_prop] in *.
        apply IH.
        + eapply (inv_once_step init Hg st n fr); eauto.
        + cbn [st_queried length]. lia. }
    apply Hgen; [now apply inv_once_init|]. cbn [st_queried length]. lia.
  Qed.
End Proofs.
