(** Proofs about the explored containers. *)
From Verif Require Import Base Frontier_model Frontier_spec Frontier_proofs AStar_model AStar_spec AStar_proofs
  AStar_opt_proofs AStarTree_spec AStarTree_proofs Store_model Store_spec.

(** ** Two containers that answer alike *)
Section Alike.
  Context {S A C P E1 E2 : Type}.
  Context (eqs : S -> S -> bool) (ltb : C -> C -> bool) (add : C -> C -> C) (zero : C).
  Context (h : S -> C) (succ : P -> S -> list (S * A * C) * P) (issol : S -> bool)
          (guard : S -> S -> bool) (graph : bool).
  Context (c1 : E1) (i1 : node S A C -> E1 -> E1) (k1 : node S A C -> E1 -> bool).
  Context (c2 : E2) (i2 : node S A C -> E2 -> E2) (k2 : node S A C -> E2 -> bool).
  Context (Rel : E1 -> E2 -> Prop).
  Context (Hclear : Rel c1 c2) (Hins : forall n e1 e2, Rel e1 e2 -> Rel (i1 n e1) (i2 n e2)).
  Context (Hcont : graph = true -> forall n e1 e2, Rel e1 e2 -> k1 n e1 = k2 n e2).

  Lemma alike_one n e1 e2 fr t : Rel e1 e2 ->
    k_expand_one eqs ltb add zero h guard graph k1 n e1 fr t = k_expand_one eqs ltb add zero h guard graph k2 n e2 fr t.
  Proof.
    intros HR. unfold k_expand_one. destruct t as [[cs a] c]. destruct graph; auto.
    now rewrite (Hcont eq_refl _ _ _ HR).
  Qed.

  Lemma alike_all n e1 e2 ts : Rel e1 e2 -> forall fr,
    k_expand_all eqs ltb add zero h guard graph k1 n e1 fr ts = k_expand_all eqs ltb add zero h guard graph k2 n e2 fr ts.
  Proof.
    intros HR. induction ts as [|t ts IH]; intros fr; cbn [k_expand_all]; auto.
    rewrite (alike_one n e1 e2 fr t HR). destruct (k_expand_one _ _ _ _ _ _ _ k2 n e2 fr t); cbn [bind]; auto.
  Qed.

  Lemma alike_loop fuel : forall st1 st2, Rel (k_expl st1) (k_expl st2) ->
    k_front st1 = k_front st2 -> k_prop st1 = k_prop st2 -> k_queried st1 = k_queried st2 ->
    rmap outcome (k_loop eqs ltb add zero h succ issol guard graph i1 k1 fuel st1) =
    rmap outcome (k_loop eqs ltb add zero h succ issol guard graph i2 k2 fuel st2).
  Proof.
    induction fuel as [|fuel IH]; intros [f1 x1 p1 q1] [f2 x2 p2 q2] HR; cbn [k_front k_expl k_prop k_queried] in *.
    { reflexivity. }
    intros <- <- <-. cbn [k_loop k_front k_expl k_prop k_queried].
    destruct (f_is_empty f1); [reflexivity|]. destruct (f_pop (n_eq eqs) f1) as [[n fr]| | |]; cbn [bind]; try reflexivity.
    destruct (issol (n_state n)); [reflexivity|]. unfold k_expand. cbn [k_front k_expl k_prop k_queried].
    destruct (succ p1 (n_state n)) as [ts p].
    rewrite (alike_all n (i1 n x1) (i2 n x2) ts) by auto.
    destruct (k_expand_all _ _ _ _ _ _ _ k2 n (i2 n x2) fr ts) as [fr'| | |]; cbn [bind]; try reflexivity.
    apply IH; auto. cbn [k_expl]. auto.
  Qed.

  Lemma alike_search fuel init p :
    rmap outcome (k_search eqs ltb add zero h succ issol guard graph c1 i1 k1 fuel init p) =
    rmap outcome (k_search eqs ltb add zero h succ issol guard graph c2 i2 k2 fuel init p).
  Proof.
    unfold k_search, k_init. destruct (f_push _ _ _ _) as [[o fr]| | |]; cbn [bind]; try reflexivity.
    apply alike_loop; auto. cbn [k_expl]. auto.
  Qed.
End Alike.

Section Instances.
  Context {S A C P : Type}.
  Context (eqs : S -> S -> bool) (ltb : C -> C -> bool) (add : C -> C -> C) (zero : C).
  Context (h : S -> C) (succ : P -> S -> list (S * A * C) * P) (issol : S -> bool)
          (guard : S -> S -> bool) (graph : bool).

  Lemma set_map_contains (n : node S A C) e : set_contains eqs n (map n_state e) = e_contains eqs n e.
  Proof. unfold set_contains, e_contains, n_eq. induction e as [|m e IH]; cbn [map existsb]; auto. now rewrite IH. Qed.

  Lemma set_and_map fuel init p :
    rmap outcome (search_set eqs ltb add zero h succ issol guard graph fuel init p) =
    rmap outcome (search_map eqs ltb add zero h succ issol guard graph fuel init p).
  Proof.
    apply (alike_search eqs ltb add zero h succ issol guard graph _ _ _ _ _ _
             (fun e1 e2 => e1 = map (@n_state S A C) e2)).
    - reflexivity.
    - intros n e1 e2 ->. unfold set_insert, e_insert. rewrite set_map_contains. now destruct (e_contains eqs n e2).
    - intros _ n e1 e2 ->. apply set_map_contains.
  Qed.

  Lemma map_one (n : node S A C) e fr t : k_expand_one eqs ltb add zero h guard graph (e_contains eqs) n e fr t =
    expand_one eqs ltb add zero h guard graph n e fr t.
  Proof. reflexivity. Qed.

  Lemma map_all (n : node S A C) e ts : forall fr, k_expand_all eqs ltb add zero h guard graph (e_contains eqs) n e fr ts =
    expand_all eqs ltb add zero h guard graph n e fr ts.
  Proof. induction ts as [|t ts IH]; intros fr; cbn [k_expand_all expand_all]; auto.
  Qed.

  Definition kept_of (st : search S A C P) : kept_search S A C P (list (node S A C)) :=
    Kept (st_front st) (st_expl st) (st_prop st) (st_queried st).

  Lemma map_loop fuel : forall st,
    k_loop eqs ltb add zero h succ issol guard graph (e_insert eqs) (e_contains eqs) fuel (kept_of st) =
    rmap (fun x => (fst x, kept_of (snd x))) (search_loop eqs ltb add zero h succ issol guard graph fuel st).
  Proof.
    induction fuel as [|fuel IH]; intros st; [reflexivity|].
    cbn [k_loop search_loop kept_of k_front k_expl k_prop k_queried].
    destruct (f_is_empty (st_front st)); [reflexivity|].
    destruct (f_pop (n_eq eqs) (st_front st)) as [[n fr]| | |]; cbn [bind]; try reflexivity.
    destruct (issol (n_state n)); [reflexivity|]. unfold k_expand, expand. cbn [k_front k_expl k_prop k_queried st_front st_expl st_prop st_queried].
    destruct (succ (st_prop st) (n_state n)) as [ts p]. rewrite map_all.
    destruct (expand_all _ _ _ _ _ _ _ n _ fr ts) as [fr'| | |]; cbn [bind]; try reflexivity.
    apply (IH (Search fr' (e_insert eqs n (st_expl st)) p (n_state n :: st_queried st))).
  Qed.

  Lemma map_search fuel init p :
    search_map eqs ltb add zero h succ issol guard graph fuel init p =
    rmap (fun x => (fst x, kept_of (snd x))) (search_path eqs ltb add zero h succ issol guard graph fuel init p).
  Proof.
    unfold search_map, k_search, k_init, search_path, init_search.
    destruct (f_push _ _ _ _) as [[o fr]| | |]; cbn [bind]; try reflexivity.
    apply (map_loop fuel (Search fr (e_insert eqs (Root init) []) p [])).
  Qed.
End Instances.

(** ** Any container *)
Section Any.
  Context {S A C P E : Type}.
  Context (eqs : S -> S -> bool) (ltb : C -> C -> bool) (add : C -> C -> C) (zero : C).
  Context (h : S -> C) (succ : P -> S -> list (S * A * C) * P) (issol : S -> bool)
          (guard : S -> S -> bool) (graph : bool).
  Context (clear : E) (insert : node S A C -> E -> E) (contains : node S A C -> E -> bool).
  Context (Heqs : equivalence S eqs) (Hlt : strict_weak_order C ltb).

  Notation node := (node S A C).
  Notation neq := (@n_eq S A C eqs).
  Notation finv := (finv (@n_cmp S A C ltb zero) neq).
  Notation upds := (upds eqs ltb add zero h guard graph).
  Notation child_of := (child_of add zero h).
  Notation chain := (chain add zero h succ).
  Notation k_expand_all := (k_expand_all eqs ltb add zero h guard graph contains).
  Notation k_loop := (k_loop eqs ltb add zero h succ issol guard graph insert contains).

  (** The answer of the container about one child, as that of a list of nodes. *)
  Lemma one_as_list (n : node) e fr t :
    k_expand_one eqs ltb add zero h guard graph contains n e fr t =
    expand_one eqs ltb add zero h guard graph n (if contains (child_of n t) e then [child_of n t] else []) fr t.
  Proof.
    unfold k_expand_one, expand_one. destruct t as [[cs a] c]. destruct graph; auto. cbn [AStar_proofs.child_of].
    set (ch := Child cs a _ _ n). destruct (contains ch e) eqn:Ec; auto.
    assert (He : e_contains eqs ch [ch] = true).
    { unfold e_contains, n_eq. cbn [existsb]. now rewrite (eqk_refl _ _ Heqs). }
    now rewrite He.
  Qed.

  Lemma any_expand n e ts : forall fr, finv fr ->
    exists fr', k_expand_all n e fr ts = Ok fr' /\ finv fr' /\
      forall y, In y (vec fr') -> In y (vec fr) \/ exists t, In t ts /\ y = child_of n t.
  Proof.
    induction ts as [|t ts IH]; intros fr Hf; cbn [Store_model.k_expand_all]; [exists fr; auto|].
    rewrite one_as_list.
    destruct (expand_one_upd eqs ltb add zero h guard graph Heqs Hlt n
      (if contains (child_of n t) e then [child_of n t] else []) fr t Hf) as (fr1 & H1 & Hf1 & Hu).
    rewrite H1. cbn [bind]. destruct (IH fr1 Hf1) as (fr2 & H2 & Hf2 & Hin). exists fr2. split; auto. split; auto.
    intros y Hy. destruct (Hin y Hy) as [Hy1|(t' & Ht' & ->)]; [|right; exists t'; cbn; auto].
    destruct (upds_in eqs ltb add zero h guard graph n
      (if contains (child_of n t) e then [child_of n t] else []) [t] (vec fr) (vec fr1)
      ltac:(econstructor; [exact Hu|constructor]) y Hy1)
      as [?|(t' & [<-|[]] & ->)]; auto. right. exists t. cbn. auto.
  Qed.

  Section Induction.
    Variable I : kept_search S A C P E -> Prop.
    Hypothesis I_finv : forall st, I st -> finv (k_front st).
    Hypothesis I_step : forall st n fr fr' p,
      I st -> finv fr -> In n (vec (k_front st)) ->
      (forall y, In y (vec (k_front st)) -> leb ltb (n_f zero n) (n_f zero y)) ->
      (forall y, In y (vec (k_front st)) <-> y = n \/ In y (vec fr)) ->
      (forall y, In y (vec fr) -> neq n y = false) ->
      issol (n_state n) = false ->
      finv fr' ->
      k_expand_all n (insert n (k_expl st)) fr (fst (succ (k_prop st) (n_state n))) = Ok fr' ->
      (forall y, In y (vec fr') -> In y (vec fr) \/
         exists t, In t (fst (succ (k_prop st) (n_state n))) /\ y = child_of n t) ->
      I (Kept fr' (insert n (k_expl st)) p (n_state n :: k_queried st)).

    (** One step of the loop, and how it ends. *)
    Lemma any_ind fuel : forall st, I st ->
      match k_loop fuel st with
      | Ok (r, st') => exists st0, I st0 /\
          match r with
          | None => vec (k_front st0) = [] /\ st' = st0
          | Some n => In n (vec (k_front st0)) /\ issol (n_state n) = true /\
                      (forall y, In y (vec (k_front st0)) -> leb ltb (n_f zero n) (n_f zero y))
          end
      | NoFuel => True
      | _ => False
      end.
    Proof using Heqs Hlt I_finv I_step.
      induction fuel as [|fuel IH]; intros st Hst; cbn [Store_model.k_loop]; [exact Logic.I|].
      destruct (f_is_empty (k_front st)) eqn:Ee.
      { exists st. split; auto. split; auto. now apply is_empty_true. }
      destruct (pop_some eqs ltb add zero Heqs Hlt (k_front st)) as (n & fr & Hp & Hfr & Hn & Hmin & Hmem & Hne); auto.
      rewrite Hp. cbn [bind]. destruct (issol (n_state n)) eqn:Es.
      { exists st. auto. }
      unfold k_expand. cbn [k_front k_expl k_prop k_queried].
      destruct (any_expand n (insert n (k_expl st)) (fst (succ (k_prop st) (n_state n))) fr Hfr) as (fr' & He & Hf' & Hin).
      destruct (succ (k_prop st) (n_state n)) as [ts p] eqn:Esu. cbn [fst] in *.
      rewrite He. cbn [bind]. apply IH. apply (I_step st n fr fr' p); auto; rewrite Esu; auto.
    Qed.
  End Induction.

  Definition any_sound init (st : kept_search S A C P E) : Prop :=
    finv (k_front st) /\ Forall (chain init) (vec (k_front st)).

  Lemma any_sound_step init n fr fr' (ts : list (S * A * C)) p : chain init n ->
    ts = fst (succ p (n_state n)) -> Forall (chain init) fr ->
    (forall y : node, In y fr' -> In y fr \/ exists t, In t ts /\ y = child_of n t) -> Forall (chain init) fr'.
  Proof.
    intros Hn -> Hfr Hin. rewrite Forall_forall in *. intros y Hy.
    destruct (Hin y Hy) as [?|([[s a] c] & Ht & ->)]; auto. constructor; auto. now exists p.
  Qed.

  Lemma any_init init (p : P) : exists fr, k_init eqs ltb zero clear insert init p = Ok (Kept fr (insert (Root init) clear) p []) /\
    finv fr /\ vec fr = [Root init].
  Proof.
    unfold k_init.
    pose proof (f_push_spec (n_cmp ltb zero) neq (n_cmp_swo ltb zero Hlt) (n_eq_equiv eqs Heqs) (Root init) f_empty (finv_empty _ _)) as H.
    cbn [f_empty vec find] in H. destruct H as (fr & H & Hi & Hv). rewrite H. cbn [bind].
    exists fr. split; [reflexivity|]. split; auto.
  Qed.

  Lemma any_search_sound fuel init p :
    match k_search eqs ltb add zero h succ issol guard graph clear insert contains fuel init p with
    | Ok (Some n, _) => chain init n /\ issol (n_state n) = true
    | Ok (None, _) | NoFuel => True
    | _ => False
    end.
  Proof.
    unfold k_search. destruct (any_init init p) as (fr & Hi & Hf & Hv). rewrite Hi. cbn [bind].
    pose proof (any_ind (any_sound init)) as H. specialize (H (fun st Hst => proj1 Hst)).
    assert (Hstep : forall st n fr fr' p,
      any_sound init st -> finv fr -> In n (vec (k_front st)) ->
      (forall y, In y (vec (k_front st)) -> leb ltb (n_f zero n) (n_f zero y)) ->
      (forall y, In y (vec (k_front st)) <-> y = n \/ In y (vec fr)) ->
      (forall y, In y (vec fr) -> neq n y = false) ->
      issol (n_state n) = false ->
      finv fr' ->
      k_expand_all n (insert n (k_expl st)) fr (fst (succ (k_prop st) (n_state n))) = Ok fr' ->
      (forall y, In y (vec fr') -> In y (vec fr) \/
         exists t, In t (fst (succ (k_prop st) (n_state n))) /\ y = child_of n t) ->
      any_sound init (Kept fr' (insert n (k_expl st)) p (n_state n :: k_queried st))).
    { clear. intros st n fr fr' p (Hf & Hc) Hfr Hn Hmin Hmem Hne Hs Hf' He Hin. split; [exact Hf'|]. cbn [k_front].
      eapply (any_sound_step init n (vec fr)); eauto.
      - eapply Forall_forall in Hc; eauto.
      - rewrite Forall_forall in *. intros y Hy. apply Hc, Hmem. auto. }
    specialize (H Hstep fuel (Kept fr (insert (Root init) clear) p [])).
    assert (H0 : any_sound init (Kept fr (insert (Root init) clear) p [])).
    { split; [exact Hf|]. cbn [k_front]. rewrite Hv. constructor; constructor. }
    specialize (H H0). destruct (k_loop fuel _) as [[[n|] st]| | |]; auto.
    destruct H as (st0 & (_ & Hc) & Hn & Hs & _). split; auto. eapply Forall_forall in Hc; eauto.
  Qed.

  Lemma any_search_path fuel init p n st :
    k_search eqs ltb add zero h succ issol guard graph clear insert contains fuel init p = Ok (Some n, st) ->
    exists l, is_path succ init l (n_state n) /\ issol (n_state n) = true /\
      get_path (Some n) = Ok (path_states init l) /\
      get_optimal_cost zero (Some n) = Some (path_cost add zero l).
  Proof.
    intros H. pose proof (any_search_sound fuel init p) as Hs. rewrite H in Hs. destruct Hs as [Hc Hs].
    assert (Hr : exists l, is_path succ init l (n_state n) /\ n_g zero n = path_cost add zero l /\
      forall acc, fill_back n_state (Datatypes.S (n_depth n)) (Some n) acc = Ok (path_states init l ++ acc)).
    { clear - Hc. induction Hc as [|n a c t Hn (l & Hp & Hg & Hs) Ht].
      - exists []. cbn. auto.
      - exists (l ++ [(a, c, t)]). split; [|split].
        + apply is_path_app. exists (n_state n). cbn. auto.
        + rewrite path_cost_app. cbn [AStar_proofs.child_of n_g path_cost fold_left step_cost fst snd]. now rewrite Hg.
        + intros acc. transitivity (fill_back n_state (Datatypes.S (n_depth n)) (Some n) (t :: acc)); [reflexivity|].
          rewrite Hs. unfold path_states. rewrite map_app. cbn [map app step_state snd].
          rewrite <- app_assoc. reflexivity. }
    destruct Hr as (l & Hp & Hg & Hf). exists l. split; auto. split; auto. unfold get_path, get_optimal_cost.
    rewrite Hf, app_nil_r, Hg. auto.
  Qed.

  Lemma any_no_ub fuel init p :
    match k_search eqs ltb add zero h succ issol guard graph clear insert contains fuel init p with
    | Ok _ | NoFuel => True | _ => False end.
  Proof.
    pose proof (any_search_sound fuel init p) as H.
    destruct (k_search _ _ _ _ _ _ _ _ _ _ _ _ fuel init p) as [[[n|] st]| | |]; auto.
  Qed.

  (** Paths that end *)
  Section Ends.
    Context (nb : S -> list (S * A * C)) (Hdet : deterministic succ nb).
    Context (init : S) (N : nat) (HN : paths_at_most succ init N).
    Notation weight := (weight nb N).
    Notation weights := (weights nb N).

    Lemma any_bounded_loop fuel : forall st, any_sound init st -> weights (vec (k_front st)) < fuel ->
      exists r st', k_loop fuel st = Ok (r, st') /\
        length (k_queried st') <= length (k_queried st) + weights (vec (k_front st)).
    Proof using Heqs Hlt Hdet HN.
      induction fuel as [|fuel IH]; intros st Hs Hw; [lia|]. cbn [Store_model.k_loop].
      destruct (f_is_empty (k_front st)) eqn:Ee.
      { exists None, st. split; auto. lia. }
      destruct (pop_some eqs ltb add zero Heqs Hlt (k_front st)) as (n & fr & Hp & Hfr & Hn & Hmin & Hmem & Hne); auto; [apply Hs|].
      rewrite Hp. cbn [bind].
      assert (Hnd : NoDup (n :: vec fr)).
      { constructor; [|apply (distinct_NoDup eqs Heqs), Hfr]. intros Hin. specialize (Hne _ Hin). unfold n_eq in Hne.
        now rewrite (eqk_refl _ _ Heqs) in Hne. }
      assert (Hle : weight n + weights (vec fr) <= weights (vec (k_front st))).
      { apply (weights_incl nb N (n :: vec fr) Hnd). intros y [<-|Hy]; auto. apply Hmem. auto. }
      assert (Hch : chain init n) by (destruct Hs as (_ & Hc); eapply Forall_forall in Hc; eauto).
      destruct (issol (n_state n)) eqn:Es.
      { exists (Some n), (Kept fr (k_expl st) (k_prop st) (k_queried st)). split; auto. cbn [k_queried]. lia. }
      unfold k_expand. cbn [k_front k_expl k_prop k_queried].
      destruct (any_expand n (insert n (k_expl st)) (fst (succ (k_prop st) (n_state n))) fr Hfr) as (fr' & He & Hf' & Hin).
      assert (Hcf : Forall (chain init) (vec fr)).
      { destruct Hs as (_ & Hc). rewrite Forall_forall in *. intros y Hy. apply Hc, Hmem. auto. }
      pose proof (any_sound_step init n _ _ _ _ Hch eq_refl Hcf Hin) as Hcf'.
      pose proof (Hdet (k_prop st) (n_state n)) as Hts.
      destruct (succ (k_prop st) (n_state n)) as [ts p] eqn:Esu. cbn [fst] in *. subst ts.
      rewrite He. cbn [bind].
      assert (Hw' : weights (vec fr') <= weights (vec fr) + weights (map (child_of n) (nb (n_state n)))).
      { unfold AStarTree_proofs.weights at 2 3. rewrite <- list_sum_app, <- map_app.
        apply (weights_incl nb N); [apply (distinct_NoDup eqs Heqs), Hf'|].
        intros y Hy. apply in_or_app. destruct (Hin y Hy) as [?|(t & Ht & ->)]; auto. right. now apply in_map. }
      pose proof (children_weight add zero h succ nb Hdet init N HN (k_prop st) n Hch) as Hcw.
      destruct (IH (Kept fr' (insert n (k_expl st)) p (n_state n :: k_queried st))) as (r & st' & Hr & Hq).
      - split; auto.
      - cbn [k_front]. lia.
      - cbn [k_front k_queried length] in *. exists r, st'. split; auto. lia.
    Qed.

    Lemma any_bounded fuel p : count_paths nb N init < fuel ->
      exists r st, k_search eqs ltb add zero h succ issol guard graph clear insert contains fuel init p = Ok (r, st) /\
        length (k_queried st) <= count_paths nb N init.
    Proof using Heqs Hlt Hdet HN.
      intros Hf. unfold k_search. destruct (any_init init p) as (fr & Hi & Hfr & Hv). rewrite Hi. cbn [bind].
      assert (Hw : weights (vec fr) = count_paths nb N init).
      { rewrite Hv. cbn. unfold AStarTree_proofs.weight. cbn [n_depth n_state]. rewrite Nat.sub_0_r. lia. }
      destruct (any_bounded_loop fuel (Kept fr (insert (Root init) clear) p [])) as (r & st & Hr & Hq).
      - split; [exact Hfr|]. cbn [k_front]. rewrite Hv. constructor; constructor.
      - cbn [k_front]. lia.
      - cbn [k_front k_queried length] in Hq. exists r, st. split; auto. lia.
    Qed.
  End Ends.
End Any.

(** ** The empty container *)
Section Void.
  Context {S A C P : Type}.
  Context (eqs : S -> S -> bool) (ltb : C -> C -> bool) (add : C -> C -> C) (zero : C).
  Context (h : S -> C) (succ : P -> S -> list (S * A * C) * P) (issol : S -> bool)
          (guard : S -> S -> bool) (graph : bool) (nb : S -> list (S * A * C)).
  Context (Heq : decides_eq eqs) (Hlt : strict_weak_order C ltb) (Hdet : deterministic succ nb).
  Let Heqs : equivalence S eqs := decides_eq_equiv eqs Heq.

  Notation node := (node S A C).
  Notation neq := (@n_eq S A C eqs).
  Notation finv := (finv (@n_cmp S A C ltb zero) neq).
  Notation upds := (upds eqs ltb add zero h guard graph).
  Notation child_of := (child_of add zero h).
  Notation chain := (chain add zero h succ).
  Notation expands := (k_expand_all eqs ltb add zero h guard graph void_contains).

  Lemma void_all (n : node) ts : forall fr, expands n tt fr ts = expand_all eqs ltb add zero h guard graph n [] fr ts.
  Proof.
    induction ts as [|t ts IH]; intros fr; [reflexivity|]. cbn [k_expand_all expand_all].
    assert (H1 : k_expand_one eqs ltb add zero h guard graph void_contains n tt fr t =
                 expand_one eqs ltb add zero h guard graph n [] fr t) by reflexivity.
    rewrite H1. destruct (expand_one eqs ltb add zero h guard graph n [] fr t) as [fr1| | |]; cbn [bind]; auto.
  Qed.

  Lemma void_upds (n : node) ts fr fr' : finv fr -> expands n tt fr ts = Ok fr' -> upds n [] ts (vec fr) (vec fr').
  Proof.
    intros Hf. rewrite void_all.
    destruct (expand_all_upds eqs ltb add zero h guard graph Heqs Hlt n [] ts fr Hf) as (fr1 & H & _ & Hu).
    rewrite H. intros H0. injection H0 as <-. exact Hu.
  Qed.

  (** Every path to a solution has a state in the frontier. *)
  Definition on_paths init (l : list node) : Prop := forall p t, is_path succ init p t -> issol t = true ->
    exists p1 p2 z, p = p1 ++ p2 /\ In z l /\ is_path succ init p1 (n_state z) /\ is_path succ (n_state z) p2 t.

  Lemma on_paths_step init (n : node) l lr l' :
    on_paths init l -> (forall y, In y l <-> y = n \/ In y lr) -> issol (n_state n) = false ->
    upds n [] (nb (n_state n)) lr l' -> on_paths init l'.
  Proof.
    intros Ho Hmem Hs Hu p t Hp Ht. destruct (Ho p t Hp Ht) as (p1 & p2 & z & -> & Hz & Hp1 & Hp2).
    apply Hmem in Hz as [->|Hz].
    - destruct p2 as [|e p2]; cbn [is_path] in Hp2.
      + subst. rewrite Hs in Ht. discriminate.
      + destruct Hp2 as [Htr Hp2]. pose proof (trans_det succ nb Hdet _ _ _ _ Htr) as Hin.
        destruct (upds_cover eqs ltb add zero h guard graph Heq _ _ _ _ _ Hu _ Hin) as [(y & [] & _)|(y & Hy & Hys)].
        cbn [fst] in Hys. exists (p1 ++ [e]), p2, y. rewrite <- app_assoc. split; auto. split; auto.
        rewrite Hys. split; auto. apply is_path_app. exists (n_state n). cbn. auto.
    - destruct (upds_keep eqs ltb add zero h guard graph Heq _ _ _ _ _ Hu (n_state z)) as (y & Hy & Hys); [exists z; auto|].
      exists p1, p2, y. rewrite Hys. auto.
  Qed.

  Lemma void_ind (I : frontier node -> Prop) init fuel p :
    (forall fr, I fr -> finv fr) ->
    (forall st n fr fr', I st -> finv fr -> In n (vec st) ->
      (forall y, In y (vec st) -> leb ltb (n_f zero n) (n_f zero y)) ->
      (forall y, In y (vec st) <-> y = n \/ In y (vec fr)) ->
      (forall y, In y (vec fr) -> neq n y = false) ->
      issol (n_state n) = false -> finv fr' -> upds n [] (nb (n_state n)) (vec fr) (vec fr') -> I fr') ->
    (forall fr, finv fr -> vec fr = [Root init] -> I fr) ->
    match search_void eqs ltb add zero h succ issol guard graph fuel init p with
    | Ok (Some n, _) => exists fr, I fr /\ In n (vec fr) /\ issol (n_state n) = true /\
        (forall y, In y (vec fr) -> leb ltb (n_f zero n) (n_f zero y))
    | Ok (None, _) => exists fr, I fr /\ vec fr = []
    | NoFuel => True
    | _ => False
    end.
  Proof.
    intros H1 H2 H3. unfold search_void, k_search.
    destruct (any_init (A:=A) eqs ltb zero tt void_insert Heqs Hlt init p) as (fr & Hi & Hf & Hv). rewrite Hi. cbn [bind].
    pose proof (any_ind eqs ltb add zero h succ issol guard graph void_insert void_contains Heqs Hlt
      (fun st => I (k_front st)) (fun st Hst => H1 _ Hst)) as Hind.
    assert (Hstep : forall st n fr fr' (q : P),
      I (k_front st) -> finv fr -> In n (vec (k_front st)) ->
      (forall y, In y (vec (k_front st)) -> leb ltb (n_f zero n) (n_f zero y)) ->
      (forall y, In y (vec (k_front st)) <-> y = n \/ In y (vec fr)) ->
      (forall y, In y (vec fr) -> neq n y = false) ->
      issol (n_state n) = false ->
      finv fr' ->
      expands n (void_insert n (k_expl st)) fr (fst (succ (k_prop st) (n_state n))) = Ok fr' ->
      (forall y, In y (vec fr') -> In y (vec fr) \/
         exists t, In t (fst (succ (k_prop st) (n_state n))) /\ y = child_of n t) -> I fr').
    { intros st n fr0 fr' q Hst Hfr Hn Hmin Hmem Hne Hs Hf' He Hin.
      apply (H2 (k_front st) n fr0); auto. apply void_upds; auto. now rewrite Hdet in He. }
    specialize (Hind Hstep fuel (Kept fr (void_insert (@Root S A C init) tt) p []) (H3 fr Hf Hv)).
    destruct (k_loop _ _ _ _ _ _ _ _ _ _ _ fuel _) as [[[n|] st]| | |]; auto.
    - destruct Hind as (st0 & Hst0 & Hr). exists (k_front st0). auto.
    - destruct Hind as (st0 & Hst0 & Hr & _). exists (k_front st0). auto.
  Qed.

  Lemma void_complete fuel init p st :
    search_void eqs ltb add zero h succ issol guard graph fuel init p = Ok (None, st) ->
    forall t, reachable succ init t -> issol t = false.
  Proof.
    intros H.
    pose proof (void_ind (fun fr => finv fr /\ on_paths init (vec fr)) init fuel p (fun fr Hfr => proj1 Hfr)) as Hind.
    rewrite H in Hind. destruct Hind as (fr & (_ & Ho) & Hv).
    - intros st0 n fr fr' (Hf & Ho) Hfr Hn Hmin Hmem Hne Hs Hf' Hu. split; auto. eapply on_paths_step; eauto.
    - intros fr Hf Hv. split; auto. intros q t Hq Ht. exists [], q, (Root init). rewrite Hv. cbn. auto.
    - intros t [q Hq]. destruct (issol t) eqn:Et; auto.
      destruct (Ho q t Hq Et) as (? & ? & z & _ & Hz & _). now rewrite Hv in Hz.
  Qed.

  (** An endless path. *)
  Lemma void_endless fuel init f p : endless succ init f -> (forall t, reachable succ init t -> issol t = false) ->
    search_void eqs ltb add zero h succ issol guard graph fuel init p = NoFuel.
  Proof.
    intros Hf Hno.
    pose proof (void_ind (fun fr => finv fr /\ exists i, covers (vec fr) (f i)) init fuel p (fun fr Hfr => proj1 Hfr)) as Hind.
    pose proof (any_search_sound eqs ltb add zero h succ issol guard graph tt void_insert void_contains Heqs Hlt fuel init p) as Hs.
    fold (search_void eqs ltb add zero h succ issol guard graph fuel init p) in Hs.
    destruct (search_void _ _ _ _ _ _ _ _ _ fuel init p) as [[[n|] st]| | |]; auto; try contradiction.
    - destruct Hs as [Hc Hs]. rewrite Hno in Hs; [discriminate|].
      destruct (chain_path _ _ _ _ _ _ Hc) as (l & Hl & _). now exists l.
    - exfalso. destruct Hind as (fr & (_ & i & y & Hy & _) & Hv).
      + intros st0 n fr fr' (Hfi & i & y & Hy & Hyi) Hfr Hn Hmin Hmem Hne Hsn Hf' Hu. split; auto.
        apply Hmem in Hy as [->|Hy].
        * exists (Datatypes.S i). destruct Hf as [_ Hstep]. destruct (Hstep i) as (a & c & Htr).
          pose proof (trans_det succ nb Hdet _ _ _ _ Htr) as Hin. rewrite <- Hyi in Hin.
          destruct (upds_cover eqs ltb add zero h guard graph Heq _ _ _ _ _ Hu _ Hin) as [(y & [] & _)|Hc]; auto.
        * exists i. eapply (upds_keep eqs ltb add zero h guard graph Heq); eauto. exists y. auto.
      + intros fr Hfr Hv. split; auto. exists 0, (Root init). rewrite Hv. split; [now left|]. cbn [n_state]. symmetry. apply Hf.
      + now rewrite Hv in Hy.
  Qed.
End Void.

(** ** The empty container with an admissible heuristic *)
Section Reopening.
  Context {S A C P : Type}.
  Context (eqs : S -> S -> bool) (ltb : C -> C -> bool) (add : C -> C -> C) (zero : C).
  Context (h : S -> C) (succ : P -> S -> list (S * A * C) * P) (issol : S -> bool) (nb : S -> list (S * A * C)).
  Context (Heq : decides_eq eqs) (Hcost : cost_laws ltb add) (Hdet : deterministic succ nb).
  Context (Hcan : cancellable ltb add h) (init : S).
  Context (Hadm : admissible_from succ ltb add h issol init) (Hsolpos : nonneg_at_solutions ltb add h issol).
  Let Heqs : equivalence S eqs := decides_eq_equiv eqs Heq.
  Let Hlt : strict_weak_order C ltb := cost_laws_swo ltb add Hcost.
  Notation node := (node S A C).
  Notation guard := (fun _ _ : S => true).
  Notation neq := (@n_eq S A C eqs).
  Notation finv := (finv (@n_cmp S A C ltb zero) neq).
  Notation le := (leb ltb).
  Notation cost := (path_cost add zero).
  Notation total_ok := (total_ok add zero h).
  Notation upds := (upds eqs ltb add zero h guard true).

  (** Every path to a solution has a state in the frontier, reached at no higher cost. *)
  Definition cheap (l : list node) : Prop := forall p t, is_path succ init p t -> issol t = true ->
    exists p1 p2 z, p = p1 ++ p2 /\ In z l /\ is_path succ init p1 (n_state z) /\ is_path succ (n_state z) p2 t /\
      le (n_g zero z) (cost p1).

  Lemma cheap_step (n : node) l lr l' :
    cheap l -> (forall y, In y l <-> y = n \/ In y lr) -> issol (n_state n) = false -> Forall total_ok lr ->
    upds n [] (nb (n_state n)) lr l' -> cheap l' /\ Forall total_ok l'.
  Proof.
    intros Hc Hmem Hs Htot Hu.
    destruct (upds_all eqs ltb add zero h Heq Hcost Hcan _ _ _ _ _ Hu Htot) as (Htot' & Himp & Hcov).
    split; auto. intros p t Hp Ht. destruct (Hc p t Hp Ht) as (p1 & p2 & z & -> & Hz & Hp1 & Hp2 & Hg).
    apply Hmem in Hz as [->|Hz].
    - destruct p2 as [|e p2]; cbn [is_path] in Hp2.
      + subst. rewrite Hs in Ht. discriminate.
      + destruct Hp2 as [Htr Hp2]. pose proof (trans_det succ nb Hdet _ _ _ _ Htr) as Hin.
        destruct (Hcov _ Hin) as [(y & [] & _)|(y & Hy & Hys & Hyg)]. cbn [fst snd] in Hys, Hyg.
        exists (p1 ++ [e]), p2, y. rewrite <- app_assoc. split; auto. split; auto. rewrite Hys.
        split; [|split; auto].
        * apply is_path_app. exists (n_state n). cbn. auto.
        * rewrite path_cost_app. cbn [path_cost fold_left]. eapply (le_trans ltb add Hcost); [exact Hyg|].
          now apply (c_mono _ _ _ Hcost).
    - destruct (Himp z Hz) as (y & Hy & Hys & Hyg). exists p1, p2, y. rewrite Hys. repeat (split; auto).
      eapply (le_trans ltb add Hcost); eauto.
  Qed.

  Lemma void_optimal fuel p n st :
    search_void eqs ltb add zero h succ issol guard true fuel init p = Ok (Some n, st) ->
    forall l t, is_path succ init l t -> issol t = true -> le (n_g zero n) (cost l).
  Proof.
    intros H.
    pose proof (void_ind eqs ltb add zero h succ issol guard true nb Heq Hlt Hdet
      (fun fr => finv fr /\ cheap (vec fr) /\ (vec fr = [Root init] \/ Forall total_ok (vec fr))) init fuel p
      (fun fr Hfr => proj1 Hfr)) as Hind.
    rewrite H in Hind. destruct Hind as (fr & (_ & Hc & Ht) & Hn & Hsol & Hmin).
    - intros st0 m fr fr' (Hf & Hc & Ht) Hfr Hn Hmin Hmem Hne Hs Hf' Hu. split; auto.
      assert (Htot : Forall total_ok (vec fr)).
      { rewrite Forall_forall. intros y Hy. destruct Ht as [Ht|Ht].
        - exfalso. assert (Hy' : In y (vec st0)) by (apply Hmem; auto).
          rewrite Ht in Hn, Hy'. destruct Hn as [<-|[]], Hy' as [<-|[]].
          specialize (Hne _ Hy). unfold n_eq in Hne. now rewrite (eqk_refl _ _ Heqs) in Hne.
        - rewrite Forall_forall in Ht. apply Ht, Hmem. auto. }
      destruct (cheap_step m _ _ _ Hc Hmem Hs Htot Hu). auto.
    - intros fr Hf Hv. split; auto. split; [|now left]. intros q t Hq Ht. exists [], q, (Root init). rewrite Hv.
      split; auto. split; [now left|]. cbn [is_path n_state]. split; auto. split; auto. apply (c_irrefl _ _ _ Hcost).
    - intros l t Hl Hst.
      assert (Hroot : n = Root init -> le (n_g zero n) (cost l)).
      { intros ->. cbn [n_g]. cbn [n_state] in Hsol.
        apply (le_trans ltb add Hcost _ (add zero (h init))); [now apply Hsolpos|].
        eapply Hadm; eauto. now exists []. }
      destruct Ht as [Ht|Ht]; [rewrite Ht in Hn; destruct Hn as [<-|[]]; auto|].
      rewrite Forall_forall in Ht. destruct (Hc l t Hl Hst) as (p1 & p2 & z & -> & Hz & Hp1 & Hp2 & Hg).
      apply (le_trans ltb add Hcost _ (n_f zero n)).
      { rewrite (Ht n Hn). now apply Hsolpos. }
      apply (le_trans ltb add Hcost _ (n_f zero z)); [now apply Hmin|].
      apply (le_trans ltb add Hcost _ (add (cost p1) (h (n_state z)))).
      { rewrite (Ht z Hz). now apply (c_mono _ _ _ Hcost). }
      rewrite path_cost_app. eapply Hadm; eauto. now exists p1.
  Qed.
End Reopening.
