(** Explored states with real costs and on grids. *)
From Coq Require Import Reals Lra.
From Verif Require Import Base Frontier_model Frontier_spec AStar_model AStar_spec AStar_proofs AStar_opt_proofs
  Heuristic_model Heuristic_proofs Grid_model Grid_spec Grid_proofs AStarN2_model AStarN2_spec AStarN2_proofs Explored_model Explored_proofs.
Open Scope Z_scope.

Section Real.
  Context {S A P : Type} (eqs : S -> S -> bool) (succ : P -> S -> list (S * A * R) * P) (issol : S -> bool) (nb : S -> list (S * A * R)).
  Context (Heq : decides_eq eqs) (Hdet : deterministic succ nb).

  Lemma efficient_real (h : S -> R) init fuel p n st :
    (forall g s a c t, reachable succ init s -> trans succ s a c t -> g + h s <= g + c + h t)%R -> (forall t, issol t = true -> h t = 0%R) ->
    search_path eqs Rltb Rplus 0%R h succ issol (fun _ _ => true) true fuel init p = Ok (Some n, st) ->
    exists cost, get_optimal_cost 0%R (Some n) = Some cost /\
    (forall s, In s (get_explored_states st) -> exists l, is_path succ init l s /\ (path_cost Rplus 0 l + h s <= cost)%R /\
       forall l', is_path succ init l' s -> (path_cost Rplus 0 l <= path_cost Rplus 0 l')%R) /\
    (forall l t, is_path succ init l t -> (path_cost Rplus 0 l + h t < cost)%R -> In t (get_explored_states st)).
  Proof.
    intros Hc Hz H. exists (n_g 0%R n). split; [reflexivity|].
    assert (Hs : h (n_state n) = 0%R). { apply Hz. eapply (search_chain eqs Rltb Rplus 0%R h succ issol); [now apply decides_eq_equiv|apply (cost_laws_swo _ _ R_cost_laws)|exact H]. }
    destruct (efficient eqs Rltb Rplus 0%R h succ issol nb Heq R_cost_laws Hdet init) with (fuel := fuel) (p := p) (n := n) (st := st) as [E1 E2]; auto.
    { intros g s a c t Hr Ht. apply leb_R. apply (Hc g s a c t Hr Ht). } { apply R_cancellable. }
    rewrite Hs in E1, E2. split.
    - intros s Hin. destruct (E1 s Hin) as (l & Hl & Hle & Hopt). exists l. split; auto. apply leb_R in Hle. split; [lra|]. intros l' Hl'. apply leb_R. auto.
    - intros l t Hl Hlt. apply (E2 l t Hl). destruct (Rltb_spec (path_cost Rplus 0%R l + h t)%R (n_g 0%R n + 0)%R) as [X|X]; auto. lra.
  Qed.

  Lemma fewer (h1 h2 : S -> R) init fuel1 p1 n1 st1 fuel2 p2 n2 st2 :
    (forall g s a c t, reachable succ init s -> trans succ s a c t -> g + h1 s <= g + c + h1 t)%R -> (forall t, issol t = true -> h1 t = 0%R) ->
    (forall g s a c t, reachable succ init s -> trans succ s a c t -> g + h2 s <= g + c + h2 t)%R -> (forall t, issol t = true -> h2 t = 0%R) ->
    (forall s, h1 s <= h2 s)%R ->
    search_path eqs Rltb Rplus 0%R h1 succ issol (fun _ _ => true) true fuel1 init p1 = Ok (Some n1, st1) ->
    search_path eqs Rltb Rplus 0%R h2 succ issol (fun _ _ => true) true fuel2 init p2 = Ok (Some n2, st2) ->
    exists cost, get_optimal_cost 0%R (Some n1) = Some cost /\ get_optimal_cost 0%R (Some n2) = Some cost /\
    forall s, In s (get_explored_states st2) -> In s (get_explored_states st1) \/ forall l, is_path succ init l s -> (cost <= path_cost Rplus 0 l + h1 s)%R.
  Proof.
    intros C1 Z1 C2 Z2 Hle R1 R2. destruct (efficient_real h1 init fuel1 p1 n1 st1 C1 Z1 R1) as (c1 & E1 & _ & N1). destruct (efficient_real h2 init fuel2 p2 n2 st2 C2 Z2 R2) as (c2 & E2 & P2 & _).
    assert (c1 = c2).
    { injection E1 as <-. injection E2 as <-.
      assert (Q : forall h fuel p n st h' fuel' p' n' st', (forall g s a c t, reachable succ init s -> trans succ s a c t -> g + h s <= g + c + h t)%R -> (forall t, issol t = true -> h t = 0%R) ->
        search_path eqs Rltb Rplus 0%R h succ issol (fun _ _ => true) true fuel init p = Ok (Some n, st) ->
        search_path eqs Rltb Rplus 0%R h' succ issol (fun _ _ => true) true fuel' init p' = Ok (Some n', st') -> (n_g 0%R n <= n_g 0%R n')%R).
      { intros h fuel p n st h' fuel' p' n' st' C Z R0 R0'.
        assert (H' := search_chain eqs Rltb Rplus 0%R h' succ issol (fun _ _ => true) true (decides_eq_equiv eqs Heq) (cost_laws_swo _ _ R_cost_laws) _ _ _ _ _ R0'). destruct H' as [Hch Hs'].
        assert (H'' := search_chain eqs Rltb Rplus 0%R h succ issol (fun _ _ => true) true (decides_eq_equiv eqs Heq) (cost_laws_swo _ _ R_cost_laws) _ _ _ _ _ R0). destruct H'' as [_ Hs].
        assert (X : exists l, is_path succ init l (n_state n') /\ n_g 0%R n' = path_cost Rplus 0%R l).
        { destruct n' as [s|s a g f q]; [inversion Hch; subst; exists []; cbn; auto|]. destruct (chain_results Rplus 0%R a h' succ init _ Hch) as (l & Hl & Hg & _). exists l. auto. }
        destruct X as (l & Hl & ->).
        assert (Y := search_optimal_any_from eqs Rltb Rplus 0%R h succ issol nb Heq R_cost_laws Hdet init). specialize (Y ltac:(intros g s a c t Hr Ht; apply leb_R; apply (C g s a c t Hr Ht)) (R_cancellable h) fuel p n st R0 l _ Hl Hs').
        apply leb_R in Y. rewrite (Z _ Hs), (Z _ Hs'), !Rplus_0_r in Y. exact Y. }
      apply Rle_antisym; eapply Q; [exact C1|exact Z1|exact R1|exact R2|exact C2|exact Z2|exact R2|exact R1]. }
    subst c2. exists c1. split; auto. split; auto. intros s Hs. destruct (P2 s Hs) as (l & Hl & Hle2 & Hopt).
    destruct (Rlt_le_dec (path_cost Rplus 0%R l + h1 s)%R c1) as [Hlt|Hge]; [left; eapply N1; eauto|]. right. intros l' Hl'. specialize (Hopt l' Hl'). lra.
  Qed.
End Real.

Lemma n2_failure_explores {C} (ltb : C -> C -> bool) (add : C -> C -> C) (zero : C) : strict_weak_order C ltb ->
  forall m n cost occ h init goal fuel st, inside m n init ->
  n2_search ltb add zero m n cost occ h init goal fuel = Ok (None, st) ->
  forall q, In q (get_explored_states st) <-> exists l, walk m n occ init l q.
Proof.
  intros Hlt m n cost occ h init goal fuel st Hi H q. unfold n2_search in H.
  rewrite (failure_explores_all cell_eqb ltb add zero h (n2_succ m n cost occ) _ _ true _ cell_decides Hlt (n2_deterministic m n cost occ) _ _ _ _ H q). split.
  - intros (l & Hl). eexists. eapply path_walk; eauto.
  - intros (l & Hl). eexists. eapply walk_path; eauto.
Qed.

Lemma n2_explored_walk {C} (ltb : C -> C -> bool) (add : C -> C -> C) (zero : C) : strict_weak_order C ltb ->
  forall m n cost occ h init goal fuel r st, inside m n init ->
  n2_search ltb add zero m n cost occ h init goal fuel = Ok (r, st) ->
  NoDup (get_explored_states st) /\ forall q, In q (get_explored_states st) -> inside m n q /\ exists l, walk m n occ init l q.
Proof.
  intros Hlt m n cost occ h init goal fuel r st Hi H. unfold n2_search in H. split.
  - eapply (explored_expanded cell_eqb ltb add zero h (n2_succ m n cost occ) _ _ true cell_decides Hlt); eauto.
  - intros q Hq. destruct (explored_reachable cell_eqb ltb add zero h (n2_succ m n cost occ) _ _ true cell_decides Hlt _ _ _ _ _ H q Hq) as (l & Hl).
    destruct (path_walk m n cost occ l init q Hi Hl) as [Hw Hin]. split; auto. eauto.
Qed.

Lemma n2_efficient m n (cost : cell -> cell -> R) occ h init goal fuel sol st : inside m n init ->
  (forall p q, inside m n p -> grid_step m n occ p q -> h p - h q <= cost p q)%R -> h goal = 0%R ->
  n2_search Rltb Rplus 0%R m n cost occ h init goal fuel = Ok (Some sol, st) ->
  exists best, get_optimal_cost 0%R (Some sol) = Some best /\
  (forall q, In q (get_explored_states st) -> exists l, walk m n occ init l q /\ (walk_cost cost init l + h q <= best)%R /\
     forall l', walk m n occ init l' q -> (walk_cost cost init l <= walk_cost cost init l')%R) /\
  (forall l q, walk m n occ init l q -> (walk_cost cost init l + h q < best)%R -> In q (get_explored_states st)).
Proof.
  intros Hi Hh Hg H. unfold n2_search in H.
  destruct (efficient_real cell_eqb (n2_succ m n cost occ) (fun s => cell_eqb s goal) _ cell_decides (n2_deterministic m n cost occ) h init fuel tt sol st) as (best & E & E1 & E2).
  - intros g s a c t (l & Hl) Ht. destruct (path_walk m n cost occ l init s Hi Hl) as [_ Hs]. apply (trans_step m n cost occ s a c t Hs) in Ht as [Hst ->]. specialize (Hh s t Hs Hst). lra.
  - intros t Ht. apply cell_eqb_eq in Ht. now subst.
  - exact H.
  - exists best. split; auto. split.
    + intros q Hq. destruct (E1 q Hq) as (l & Hl & Hle & Hopt). rewrite (steps_of_states m n cost occ l init q Hi Hl), walk_cost_path, Rplus_0_l in Hle, Hopt. exists (map step_state l).
      split; [eapply path_walk; eauto|]. split; auto. intros l' Hl'. specialize (Hopt _ (walk_path m n cost occ l' init q Hi Hl')). rewrite walk_cost_path, Rplus_0_l in Hopt. exact Hopt.
    + intros l q Hl Hlt. apply (E2 _ _ (walk_path m n cost occ l init q Hi Hl)). rewrite walk_cost_path, Rplus_0_l. exact Hlt.
Qed.
