From Verif Require Import Base Frontier_model Frontier_spec Frontier_proofs AStar_model AStar_spec AStar_proofs AStar_opt_proofs
  AStarApi_model AStarApi_spec.

Section Proofs.
  Context {S A C : Type} (eqs : S -> S -> bool) (ltb : C -> C -> bool) (add : C -> C -> C) (zero : C) (dflt : A).
  Context (Heqs : equivalence S eqs) (Hlt : strict_weak_order C ltb).

  Lemma is_path_last {P} (succ : P -> S -> list (S * A * C) * P) l : forall s t,
    is_path succ s l t -> last (path_states s l) s = t.
  Proof.
    assert (Hgen : forall l s t d, is_path succ s l t -> last (s :: map step_state l) d = t).
    { induction l0 as [|e l0 IH]; intros s t d H; cbn [is_path] in H; [now subst|].
      destruct H as [_ H]. specialize (IH _ _ d H). cbn [map]. cbn [map] in IH.
      change (last (s :: step_state e :: map step_state l0) d) with (last (step_state e :: map step_state l0) d).
      exact IH. }
    intros s t. apply Hgen.
  Qed.

  Lemma last_search_acc evs : forall (i g : S) acc, 
    last_search evs i g acc = match last_search evs i g None with Some r => Some r | None => acc end.
  Proof.
    induction evs as [|ev evs IH]; intros i g acc; cbn; auto. destruct ev; auto.
    rewrite (IH i g (Some (r, i, g))). now destruct (last_search evs i g None).
  Qed.

  Definition sol_ok (acc : option (status * S * S)) (sol : option (node S A C)) : Prop :=
    exists path, get_path sol = Ok path /\ path_matches eqs acc path.

  Lemma run_calls_ok cs : forall pl evs pl' acc,
    no_rejected_initialize cs -> sol_ok acc (pl_sol pl) -> (pl_inited pl = false -> pl_sol pl = None) ->
    (pl_inited pl = true -> pl_env pl <> None) ->
    run_calls eqs ltb add zero pl cs = Ok (evs, pl') ->
    sol_ok (last_search evs (pl_init pl) (pl_goal pl) acc) (pl_sol pl').
  Proof.
    induction cs as [|c cs IH]; intros pl evs pl' acc Hno Hok Hin Henv H; cbn [run_calls] in H.
    - injection H as <- <-. exact Hok.
    - assert (Hno' : no_rejected_initialize cs) by (intros e He; apply Hno; now right).
      destruct (call_step eqs ltb add zero pl c) as [[ev pl1]| | |] eqn:Ec; try discriminate. cbn [bind] in H.
      destruct (run_calls eqs ltb add zero pl1 cs) as [[evs1 pl2]| | |] eqn:Er; try discriminate. cbn [bind] in H.
      injection H as <- <-.
      destruct c as [s|s|[e|]|fuel]; cbn [call_step] in Ec.
      + injection Ec as <- <-. cbn [last_search]. eapply (IH _ _ _ acc) in Er; eauto.
      + injection Ec as <- <-. cbn [last_search]. eapply (IH _ _ _ acc) in Er; eauto.
      + injection Ec as <- <-. cbn [last_search]. eapply (IH _ _ _ acc) in Er; eauto; cbn; congruence.
      + exfalso. apply (Hno None); [now left|auto].
      + destruct (pl_inited pl) eqn:Ei.
        * destruct (pl_env pl) as [e|] eqn:Ee; [|discriminate].
          destruct (search_path eqs ltb add zero (env_h e (pl_goal pl)) (fun (_ : unit) s => (env_succ e s, tt))
                      (fun s => eqs s (pl_goal pl)) (fun _ _ => true) true fuel (pl_init pl) tt)
            as [[sol st]| | |] eqn:Es; try discriminate. cbn [bind] in Ec. injection Ec as <- <-.
          cbn [last_search]. eapply IH in Er; eauto; cbn [pl_init pl_goal pl_inited pl_env pl_sol] in *; try congruence; eauto.
          destruct sol as [n|].
          -- destruct (search_sound eqs ltb add zero dflt _ _ _ _ _ Heqs Hlt _ _ _ _ _ Es)
               as (l & Hp & Hs & Hgp & _).
             exists (path_states (pl_init pl) l). split; [exact Hgp|].
             exists (map step_state l). split; [reflexivity|].
             rewrite (is_path_last _ _ _ _ Hp). exact Hs.
          -- exists []. split; reflexivity.
        * injection Ec as <- <-. cbn [last_search]. eapply IH in Er; eauto.
          rewrite Hin by auto. exists []. split; reflexivity.
  Qed.

  Lemma api_results_match d (cs : list (call S A C)) evs pl' : no_rejected_initialize cs ->
    run_calls eqs ltb add zero (planner_new d) cs = Ok (evs, pl') ->
    exists path, get_path (pl_sol pl') = Ok path /\ path_matches eqs (last_search evs d d None) path.
  Proof.
    intros Hno H. apply (run_calls_ok cs (planner_new d) evs pl' None); auto; cbn; [|congruence].
    exists []. split; reflexivity.
  Qed.
End Proofs.
