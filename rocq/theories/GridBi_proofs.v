(** Bidirectional A* on occupancy grids. *)
From Coq Require Import Reals Lra.
From Verif Require Import Base Frontier_model Frontier_spec AStar_model AStar_spec AStar_proofs AStar_opt_proofs Bidir_model Bidir_spec
  Bidir_proofs Bidir_opt_proofs Heuristic_model Heuristic_proofs Grid_model Grid_spec Grid_proofs AStarN2_model AStarN2_spec AStarN2_proofs
  AStarTree_proofs GridBi_spec.

(** ** Propagators that agree on the states met give the same search *)
Section Agree.
  Context {S A C P : Type} (eqs : S -> S -> bool) (ltb : C -> C -> bool) (add : C -> C -> C) (zero : C).
  Context (h : S -> C) (succ succ' : P -> S -> list (S * A * C) * P) (graph : bool).
  Context (Heqs : equivalence S eqs) (Hlt : strict_weak_order C ltb).

  Lemma pop_agree init (st : search S A C P) : inv_sound eqs ltb add zero h succ init st -> f_is_empty (st_front st) = false ->
    (forall p s, reachable succ init s -> succ p s = succ' p s) ->
    pop_expand eqs ltb add zero graph h succ st = pop_expand eqs ltb add zero graph h succ' st.
  Proof.
    intros (Hf & Hc & _) He Ha. unfold pop_expand.
    destruct (pop_some eqs ltb add zero Heqs Hlt (st_front st) Hf He) as (n & fr & Hp & _ & Hn & _). rewrite Hp. cbn [bind].
    unfold expand. cbn [st_front st_expl st_prop st_queried]. rewrite Forall_forall in Hc.
    destruct (chain_path add zero h succ init n (Hc n Hn)) as (l & Hl & _). rewrite (Ha (st_prop st) (n_state n)); [reflexivity|]. now exists l.
  Qed.
End Agree.

Section AgreeBi.
  Context {S A C Pf Pr : Type} (eqs : S -> S -> bool) (ltb : C -> C -> bool) (add : C -> C -> C) (zero : C).
  Context (hf hr : S -> C) (succf succf' : Pf -> S -> list (S * A * C) * Pf) (succr succr' : Pr -> S -> list (S * A * C) * Pr) (graph : bool).
  Context (Heqs : equivalence S eqs) (Hlt : strict_weak_order C ltb) (init goal : S).
  Context (Haf : forall p s, reachable succf init s -> succf p s = succf' p s).
  Context (Har : forall p s, reachable succr goal s -> succr p s = succr' p s).

  Lemma loop_agree offset fuel : forall b, J_sound eqs ltb add zero hf hr succf succr init goal b ->
    bi_loop eqs ltb add zero hf hr succf succr graph fuel offset b = bi_loop eqs ltb add zero hf hr succf' succr' graph fuel offset b.
  Proof.
    induction fuel as [|fuel IH]; intros b Hb; [reflexivity|]. cbn [bi_loop]. destruct (either_empty b) eqn:Ee; [reflexivity|].
    destruct (iteration_ok eqs ltb add zero hf hr succf succr graph Heqs Hlt (J_sound eqs ltb add zero hf hr succf succr init goal)
      (J_sound_finv eqs ltb add zero hf hr succf succr init goal) (J_sound_fwd eqs ltb add zero hf hr succf succr graph Heqs init goal)
      (J_sound_rev eqs ltb add zero hf hr succf succr graph init goal) b Hb Ee) as (b1 & b2 & H1 & H2 & Hb2 & _).
    pose proof Ee as Ee'. unfold either_empty in Ee'. apply orb_false_iff in Ee' as [Hef Her].
    assert (E1 : forward eqs ltb add zero hf succf graph b = forward eqs ltb add zero hf succf' graph b).
    { unfold forward. now rewrite (pop_agree eqs ltb add zero hf succf succf' graph Heqs Hlt init (b_f b) (proj1 Hb) Hef Haf). }
    assert (R1 : b_r b1 = b_r b).
    { unfold forward in H1. destruct (pop_expand eqs ltb add zero graph hf succf (b_f b)) as [[x f']| | |]; try discriminate. cbn [bind] in H1.
      destruct (find_intersection _ _ _ _ _ _ _) as [c m]. now injection H1 as <-. }
    assert (E2 : backward eqs ltb add zero hr succr graph b1 = backward eqs ltb add zero hr succr' graph b1).
    { unfold backward. rewrite R1. now rewrite (pop_agree eqs ltb add zero hr succr succr' graph Heqs Hlt goal (b_r b) (proj1 (proj2 Hb)) Her Har). }
    rewrite <- E1, H1. cbn [bind]. rewrite <- E2, H2. cbn [bind]. destruct (finished _ _ _ _ b2) as [fin| | |]; cbn [bind]; auto.
    destruct fin; auto.
  Qed.

  Lemma search_agree fuel pf pr : bi_search eqs ltb add zero hf hr succf succr graph fuel init goal pf pr =
    bi_search eqs ltb add zero hf hr succf' succr' graph fuel init goal pf pr.
  Proof.
    unfold bi_search.
    destruct (@init_search_ok S A C Pf eqs ltb zero Heqs Hlt init pf) as (frf & -> & Hf & Hvf). cbn [bind].
    destruct (@init_search_ok S A C Pr eqs ltb zero Heqs Hlt goal pr) as (frr & -> & Hr & Hvr). cbn [bind].
    apply loop_agree. now apply J_sound_init.
  Qed.
End AgreeBi.

(** ** Grids *)
Open Scope Z_scope.
Section Free.
  Context {C : Type} (m n : Z) (occ : cell -> bool).
  Definition free_cell (p : cell) : bool := (0 <=? row p) && (row p <? m) && (0 <=? col p) && (col p <? n) && negb (occ p).
  (** The propagator of the grid, with no way out of cells that are occupied or outside. *)
  Definition free_succ (cost : cell -> cell -> C) (u : unit) (p : cell) : list (cell * unit * C) * unit :=
    if free_cell p then n2_succ m n cost occ u p else ([], u).

  Lemma free_spec p : free_cell p = true <-> inside m n p /\ occ p = false.
  Proof. unfold free_cell, inside. destruct (occ p); lia. Qed.

  Lemma step_back p q : inside m n p -> occ p = false -> grid_step m n occ p q -> grid_step m n occ q p.
  Proof.
    intros Hi Ho (H1 & H2 & H3 & H4). split; auto. split; [unfold touches in *; lia|]. split; auto.
    intros (A1 & A2 & A3 & A4). apply H4. auto.
  Qed.

  Lemma free_trans (cost : cell -> cell -> C) p a c q : trans (free_succ cost) p a c q <-> inside m n p /\ occ p = false /\ grid_step m n occ p q /\ c = cost p q.
  Proof.
    unfold trans, free_succ. split.
    - intros [u H]. destruct (free_cell p) eqn:E; [|easy]. apply free_spec in E as [Hi Ho]. repeat (split; [assumption|]).
      apply (trans_step m n cost occ p a c q Hi). exists u. exact H.
    - intros (Hi & Ho & H). exists tt. rewrite (proj2 (free_spec p) (conj Hi Ho)). apply (trans_step m n cost occ p a c q Hi) in H as [[] H]. exact H.
  Qed.

  Lemma free_reach (cost : cell -> cell -> C) p q : inside m n p -> occ p = false -> reachable (n2_succ m n cost occ) p q -> free_cell q = true.
  Proof.
    intros Hi Ho [l Hl]. revert p Hi Ho Hl. induction l as [|e l IH]; intros p Hi Ho Hl; cbn [is_path] in Hl.
    - subst. now apply free_spec.
    - destruct Hl as [Ht Hl]. apply trans_step in Ht; auto. destruct Ht as [(H1 & _ & H2 & _) _]. now apply (IH (step_state e)).
  Qed.

  Lemma free_path (cost : cell -> cell -> C) p l q : inside m n p -> occ p = false -> walk m n occ p l q -> is_path (free_succ cost) p (steps_of cost p l) q.
  Proof.
    revert p. induction l as [|c l IH]; intros p Hi Ho Hw; cbn [walk steps_of is_path] in *; auto. destruct Hw as [Hs Hw].
    split; [apply free_trans; auto|]. apply IH; auto; apply Hs.
  Qed.
  Lemma free_walk (cost : cell -> cell -> C) l : forall p q, is_path (free_succ cost) p l q -> walk m n occ p (map step_state l) q /\ l = steps_of cost p (map step_state l).
  Proof.
    induction l as [|e l IH]; intros p q Hl; cbn [is_path map walk steps_of] in *; auto. destruct Hl as [Ht Hl].
    apply free_trans in Ht as (Hi & Ho & Hs & Hc). destruct (IH _ _ Hl) as [Hw He]. split; auto. rewrite <- He.
    destruct e as [[[] c] s]. cbn in *. now subst.
  Qed.

  Lemma free_back (cost costr : cell -> cell -> C) : can_go_back (free_succ cost) (free_succ costr).
  Proof.
    intros p a c q H. apply free_trans in H as (Hi & Ho & Hs & Hc). exists tt, (costr q p). apply free_trans.
    pose proof (step_back p q Hi Ho Hs). split; [apply Hs|]. split; [apply Hs|]. auto.
  Qed.
  Lemma free_back_same (cost costr : cell -> cell -> C) : (forall p q, cost p q = costr q p) -> can_go_back_same_cost (free_succ cost) (free_succ costr).
  Proof.
    intros Hsym p a c q H. apply free_trans in H as (Hi & Ho & Hs & Hc). exists tt. apply free_trans.
    pose proof (step_back p q Hi Ho Hs). split; [apply Hs|]. split; [apply Hs|]. split; auto. now rewrite Hc.
  Qed.
End Free.

Section GridBi.
  Context {C : Type} (ltb : C -> C -> bool) (add : C -> C -> C) (zero : C) (Hlt : strict_weak_order C ltb).
  Context (m n : Z) (cost costr : cell -> cell -> C) (occ : cell -> bool) (hf hr : cell -> C).
  Notation succf := (n2_succ m n cost occ).
  Notation succr := (n2_succ m n costr occ).

  Lemma grid_bi_free init goal fuel : inside m n init -> inside m n goal -> occ init = false -> occ goal = false ->
    bi_search cell_eqb ltb add zero hf hr succf succr true fuel init goal tt tt =
    bi_search cell_eqb ltb add zero hf hr (free_succ m n occ cost) (free_succ m n occ costr) true fuel init goal tt tt.
  Proof.
    intros Hi Hg Oi Og. apply search_agree; auto; [apply (decides_eq_equiv _ cell_decides)| |]; intros p s Hs; unfold free_succ.
    - now rewrite (free_reach m n occ cost init s Hi Oi Hs).
    - now rewrite (free_reach m n occ costr goal s Hg Og Hs).
  Qed.

  Lemma grid_bi_ends init goal fuel : inside m n init -> (Z.to_nat m * Z.to_nat n < fuel)%nat ->
    exists ok b, bi_search cell_eqb ltb add zero hf hr succf succr true fuel init goal tt tt = Ok (ok, b).
  Proof.
    intros Hi Hf. apply (bi_terminates cell_eqb ltb add zero tt hf hr succf succr true (decides_eq_equiv _ cell_decides) Hlt init goal
      (all_cells m n) eq_refl (n2_finite m n cost occ init Hi)). now rewrite all_cells_length.
  Qed.

  Lemma grid_bi_fails init goal fuel b : inside m n init -> inside m n goal -> occ init = false -> occ goal = false ->
    bi_search cell_eqb ltb add zero hf hr succf succr true fuel init goal tt tt = Ok (false, b) -> forall l, ~ walk m n occ init l goal.
  Proof.
    intros Hi Hg Oi Og H l Hw. rewrite (grid_bi_free init goal fuel Hi Hg Oi Og) in H.
    refine (bi_complete cell_eqb ltb add zero hf hr (free_succ m n occ cost) (free_succ m n occ costr) true
      (fun s => fst (free_succ m n occ cost tt s)) (fun s => fst (free_succ m n occ costr tt s)) cell_decides Hlt _ _
      fuel init goal tt tt b H (free_back m n occ cost costr) _).
    - intros [] s. reflexivity.
    - intros [] s. reflexivity.
    - exists (steps_of cost init l). now apply free_path.
  Qed.

  Lemma walk_app p l1 q l2 r : walk m n occ p l1 q -> walk m n occ q l2 r -> walk m n occ p (l1 ++ l2) r.
  Proof. clear. revert p. induction l1 as [|c l1 IH]; intros p H1 H2; cbn [walk app] in *; [now subst|]. split; [apply H1|]. apply IH; tauto. Qed.

  Lemma walk_back l : forall p q, inside m n p -> occ p = false -> walk m n occ p l q -> exists l', walk m n occ q l' p.
  Proof.
    clear. induction l as [|c l IH]; intros p q Hi Ho Hw; cbn [walk] in Hw.
    - subst. now exists [].
    - destruct Hw as [Hs Hw]. destruct (IH c q) as [l' H']; try apply Hs; auto. exists (l' ++ [p]). apply (walk_app q l' c [p] p); auto.
      cbn. split; auto. now apply step_back.
  Qed.

  Lemma grid_bi_finds init goal fuel b : inside m n init -> inside m n goal -> occ init = false -> occ goal = false ->
    bi_search cell_eqb ltb add zero hf hr succf succr true fuel init goal tt tt = Ok (true, b) -> exists l, walk m n occ init l goal.
  Proof.
    intros Hi Hg Oi Og H.
    destruct (bi_sound cell_eqb ltb add zero tt hf hr succf succr true (decides_eq_equiv _ cell_decides) Hlt init goal fuel tt tt b H)
      as (lf & lr & s & s' & Hf & Hr & He & _). apply cell_decides in He. subst s'.
    destruct (path_walk m n cost occ lf init s Hi Hf) as [W1 _]. destruct (path_walk m n costr occ lr goal s Hg Hr) as [W2 _].
    destruct (walk_back _ goal s Hg Og W2) as [l' W]. exists (map step_state lf ++ l'). now apply (walk_app _ _ s).
  Qed.

  Lemma grid_bi_decides init goal fuel h fuel' : inside m n init -> inside m n goal -> occ init = false -> occ goal = false ->
    (Z.to_nat m * Z.to_nat n < fuel)%nat -> (Z.to_nat m * Z.to_nat n < fuel')%nat ->
    exists ok b r st, bi_search cell_eqb ltb add zero hf hr succf succr true fuel init goal tt tt = Ok (ok, b) /\
      n2_search ltb add zero m n cost occ h init goal fuel' = Ok (r, st) /\
      (ok = true <-> exists l, walk m n occ init l goal) /\ (ok = true <-> r <> None).
  Proof.
    intros Hi Hg Oi Og Hf Hf'. destruct (grid_bi_ends init goal fuel Hi Hf) as (ok & b & E).
    destruct (n2_terminates ltb add zero Hlt m n cost occ h init goal Hi fuel' Hf') as (r & st & E').
    exists ok, b, r, st. split; auto. split; auto.
    assert (X : ok = true <-> exists l, walk m n occ init l goal).
    { split; [intros ->; now apply (grid_bi_finds init goal fuel b)|]. intros [l Hl]. destruct ok; auto.
      now destruct (grid_bi_fails init goal fuel b Hi Hg Oi Og E l). }
    split; auto. rewrite X. split.
    - intros [l Hl] ->. now apply (n2_complete ltb add zero Hlt m n cost occ h init goal fuel' st Hi E' l).
    - intros Hr. destruct r as [sol|]; [|easy]. destruct (n2_sound ltb add zero Hlt m n cost occ h init goal fuel' sol st Hi E') as (l & _ & Hl). now exists l.
  Qed.
End GridBi.

(** ** Costs *)
Section Costs.
  Local Open Scope R_scope.
  Context (m n : Z) (cost costr : cell -> cell -> R) (occ : cell -> bool) (hf hr : cell -> R).
  Context (Hsym : forall p q, cost p q = costr q p).

  Lemma edges_of l : forall p u e, In (u, e) (path_edges p (steps_of cost p l)) ->
    In (u, step_state e) (walk_edges p l) /\ step_cost e = cost u (step_state e).
  Proof.
    clear. induction l as [|c l IH]; intros p u e H; cbn [steps_of path_edges walk_edges In] in *; [easy|]. destruct H as [H|H].
    - injection H as <- <-. cbn. auto.
    - destruct (IH c u e H). auto.
  Qed.

  Lemma cost_of p l : path_cost Rplus 0 (steps_of cost p l) = walk_cost cost p l.
  Proof. rewrite walk_cost_path. lra. Qed.

  Lemma grid_bi_path init goal fuel b : inside m n init -> inside m n goal -> occ init = false -> occ goal = false ->
    bi_search cell_eqb Rltb Rplus 0 hf hr (n2_succ m n cost occ) (n2_succ m n costr occ) true fuel init goal tt tt = Ok (true, b) ->
    exists l1 s l2, walk m n occ init l1 s /\ walk m n occ s l2 goal /\ bi_path (b_sol b) = Ok ((init :: l1) ++ s :: l2) /\
      bi_cost Rplus 0 (b_sol b) = Some (walk_cost cost init (l1 ++ l2)).
  Proof.
    intros Hi Hg Oi Og H. rewrite (grid_bi_free Rltb Rplus 0 R_swo m n cost costr occ hf hr init goal fuel Hi Hg Oi Og) in H.
    destruct (bi_path_forward_R cell_eqb tt hf hr (free_succ m n occ cost) (free_succ m n occ costr) true cell_decides init goal fuel tt tt b
      (free_back_same m n occ costr cost (fun p q => eq_sym (Hsym q p))) H) as (p1 & p2 & s & Hp & Hp1 & Hb & Hc).
    pose proof Hp as Hp'. apply is_path_app in Hp' as (s' & Hq1 & Hp2).
    assert (s' = s).
    { clear -Hp1 Hq1. revert init Hp1 Hq1. induction p1 as [|e p1 IH]; intros i H1 H2; cbn [is_path] in *; [congruence|].
      apply (IH (step_state e)); tauto. }
    subst s'. destruct (free_walk m n occ cost p1 _ _ Hp1) as [W1 _]. destruct (free_walk m n occ cost p2 _ _ Hp2) as [W2 _].
    destruct (free_walk m n occ cost _ _ _ Hp) as [_ E]. exists (map step_state p1), s, (map step_state p2).
    repeat (split; [assumption|]). rewrite Hc, E, cost_of, map_app. reflexivity.
  Qed.

  Lemma grid_bi_near init goal fuel b : inside m n init -> inside m n goal -> occ init = false -> occ goal = false ->
    (forall p q, inside m n p -> occ p = false -> grid_step m n occ p q -> hf p - hf q <= cost p q /\ hr p - hr q <= costr p q) ->
    (forall u v, hf u + hr u = hf v + hr v) -> (forall s, 0 <= hf s /\ 0 <= hr s) ->
    bi_search cell_eqb Rltb Rplus 0 hf hr (n2_succ m n cost occ) (n2_succ m n costr occ) true fuel init goal tt tt = Ok (true, b) ->
    exists c, bi_cost Rplus 0 (b_sol b) = Some c /\ forall l, walk m n occ init l goal ->
      c <= walk_cost cost init l \/ exists u v, In (u, v) (walk_edges init l) /\ c <= walk_cost cost init l + cost u v + (hf v - hf u).
  Proof.
    intros Hi Hg Oi Og Hc Hs Hp H. rewrite (grid_bi_free Rltb Rplus 0 R_swo m n cost costr occ hf hr init goal fuel Hi Hg Oi Og) in H.
    destruct (bi_bound_gen cell_eqb hf hr (free_succ m n occ cost) (free_succ m n occ costr)
      (fun s => fst (free_succ m n occ cost tt s)) (fun s => fst (free_succ m n occ costr tt s)) cell_decides) with (6 := H) as (c & Ec & _ & Ho).
    - intros [] s. reflexivity.
    - intros [] s. reflexivity.
    - intros u a k v Ht. apply free_trans in Ht as (Iu & Ou & Hst & ->). now apply Hc.
    - intros u a k v Ht. apply free_trans in Ht as (Iu & Ou & Hst & ->). now apply Hc.
    - now apply free_back_same.
    - exists c. split; auto. intros l Hw.
      destruct (Ho Hs (fun s => proj1 (Hp s)) (fun s => proj2 (Hp s)) (steps_of cost init l) (free_path m n occ cost init l goal Hi Oi Hw)) as [L|(u & e & He & L)].
      + left. now rewrite cost_of in L.
      + right. destruct (edges_of l init u e He) as [He' Ec']. exists u, (step_state e). split; auto. now rewrite cost_of, Ec' in L.
  Qed.
End Costs.
