From Coq Require Import Reals Lra.
From Verif Require Import Base Frontier_model Frontier_spec AStar_model AStar_spec AStar_proofs AStar_opt_proofs
  Heuristic_model Heuristic_proofs Grid_model Grid_spec Grid_proofs AStarN2_model AStarN2_spec.
Open Scope Z_scope.

Section N2.
  Context {C : Type} (m n : Z) (cost : cell -> cell -> C) (occ : cell -> bool).

  Lemma n2_loop_In p l : exists r, n2_loop cost (fun c => Ok (occ c)) p l = Ok r /\
    forall q a c, In (q, a, c) r <-> In q l /\ c = cost p q /\ occ q = false /\
      ~ (is_diagonal_to q p = true /\ occ (Cell (row q) (col p)) = true /\ occ (Cell (row p) (col q)) = true).
  Proof.
    induction l as [|x l (r & Hr & IH)]; cbn [n2_loop].
    - exists []. split; auto. intros q a c. cbn. tauto.
    - cbn [bind]. rewrite Hr. cbn [bind].
      assert (Hskip : exists b, (if occ x then Ok true
                  else if is_diagonal_to x p then
                         if occ (Cell (row x) (col p)) then Ok (occ (Cell (row p) (col x))) else Ok false
                       else Ok false) = Ok b /\
              (b = false <-> occ x = false /\
      ~ (is_diagonal_to x p = true /\ occ (Cell (row x) (col p)) = true /\ occ (Cell (row p) (col x)) = true))).
      { destruct (occ x), (is_diagonal_to x p), (occ (Cell (row x) (col p))), (occ (Cell (row p) (col x)));
          eexists; (split; [reflexivity|]); intuition congruence. }
      destruct Hskip as (b & Hb & Hiff). rewrite Hb. cbn [bind]. eexists. split; [reflexivity|].
      intros q a c. destruct a. destruct b.
      + rewrite IH. cbn [In]. split.
        * intros (H1 & H2). tauto.
        * intros (H1 & H2 & H3). split; [|tauto]. destruct H1 as [->|H1]; auto.
          destruct Hiff as [_ Hiff]. now specialize (Hiff H3).
      + cbn [In]. rewrite IH. destruct Hiff as [Hiff _]. specialize (Hiff eq_refl). split.
        * intros [H|H].
          -- injection H as <- <-. tauto.
          -- tauto.
        * intros ([->|H1] & -> & H3); [left; reflexivity|right; tauto].
  Qed.

  Lemma n2_neighbors_In p q a c : inside m n p ->
    In (q, a, c) (n2_neighbors m n cost occ p) <-> grid_step m n occ p q /\ c = cost p q.
  Proof.
    intros Hp. unfold n2_neighbors, n2_neighbors_res.
    destruct (n2_loop_In p (get_neighbors m n p)) as (r & -> & H). rewrite H, get_neighbors_In by auto.
    unfold grid_step, is_diagonal_to.
    assert (Hd : negb (row q =? row p) && negb (col q =? col p) = true <-> row p <> row q /\ col p <> col q) by lia.
    tauto.
  Qed.

  (** The calls of IsOccupied stay inside the grid. *)
  Lemma n2_loop_safe (occr : cell -> res bool) p l : inside m n p ->
    (forall c, inside m n c -> occr c = Ok (occ c)) -> (forall q, In q l -> inside m n q) ->
    n2_loop cost occr p l = n2_loop cost (fun c => Ok (occ c)) p l.
  Proof.
    intros Hp Ho. induction l as [|x l IH]; intros Hl; cbn [n2_loop]; auto.
    assert (Hx : inside m n x) by (apply Hl; now left).
    rewrite IH by (intros q Hq; apply Hl; now right).
    rewrite (Ho x Hx), (Ho (Cell (row x) (col p))), (Ho (Cell (row p) (col x))); auto;
      destruct Hp, Hx; split; auto.
  Qed.

  Lemma n2_safe (occr : cell -> res bool) p : inside m n p -> (forall c, inside m n c -> occr c = Ok (occ c)) ->
    n2_neighbors_res m n cost occr p = Ok (n2_neighbors m n cost occ p).
  Proof.
    intros Hp Ho. unfold n2_neighbors, n2_neighbors_res. rewrite (n2_loop_safe occr) by
      (auto; intros q Hq; apply get_neighbors_In in Hq; tauto).
    destruct (n2_loop_In p (get_neighbors m n p)) as (r & -> & _). reflexivity.
  Qed.

  Let succ := n2_succ m n cost occ.

  Lemma trans_step p a c q : inside m n p -> trans succ p a c q <-> grid_step m n occ p q /\ c = cost p q.
  Proof.
    intros Hp. rewrite <- (n2_neighbors_In p q a c Hp). split.
    - intros [u H]. exact H.
    - intros H. exists tt. exact H.
  Qed.

  Lemma path_walk l : forall p q, inside m n p -> is_path succ p l q ->
    walk m n occ p (map step_state l) q /\ inside m n q.
  Proof.
    induction l as [|e l IH]; intros p q Hp H; cbn [is_path map walk] in *; [now subst|].
    destruct H as [Ht H]. apply trans_step in Ht; auto. destruct Ht as [Hs Hc].
    assert (Hi : inside m n (step_state e)) by apply Hs.
    destruct (IH _ _ Hi H) as [Hw Hq]. auto.
  Qed.

  Fixpoint steps_of (p : cell) (l : list cell) : list (step cell unit C) :=
    match l with
    | [] => []
    | c :: l' => (tt, cost p c, c) :: steps_of c l'
    end.

  Lemma walk_path l : forall p q, inside m n p -> walk m n occ p l q -> is_path succ p (steps_of p l) q.
  Proof.
    induction l as [|c l IH]; intros p q Hp H; cbn [walk steps_of is_path] in *; auto.
    destruct H as [Hs H]. split.
    - apply trans_step; auto.
    - apply IH; auto. apply Hs.
  Qed.

  Lemma steps_of_states l : forall p q, inside m n p -> is_path succ p l q -> l = steps_of p (map step_state l).
  Proof.
    induction l as [|e l IH]; intros p q Hp H; cbn [is_path map steps_of] in *; auto.
    destruct H as [Ht H]. apply trans_step in Ht; auto. destruct Ht as [Hs Hc].
    rewrite <- (IH (step_state e) q); auto; [|apply Hs]. f_equal.
    destruct e as [[[] c] s]. cbn in *. now subst.
  Qed.

  Lemma n2_deterministic : deterministic succ (n2_neighbors m n cost occ).
  Proof. intros p s. reflexivity. Qed.

  (** All cells of the grid. *)
  Definition all_cells : list cell :=
    flat_map (fun i => map (fun j => Cell (Z.of_nat i) (Z.of_nat j)) (seq 0 (Z.to_nat n))) (seq 0 (Z.to_nat m)).

  Lemma all_cells_In p : inside m n p -> In p all_cells.
  Proof.
    intros [Hr Hc]. unfold all_cells. apply in_flat_map. exists (Z.to_nat (row p)). split.
    - apply in_seq. lia.
    - apply in_map_iff. exists (Z.to_nat (col p)). split.
      + destruct p as [r c]. cbn in *. f_equal; lia.
      + apply in_seq. lia.
  Qed.

  Lemma all_cells_length : length all_cells = (Z.to_nat m * Z.to_nat n)%nat.
  Proof.
    unfold all_cells. generalize 0%nat at 2. induction (Z.to_nat m) as [|k IH]; intros s; cbn; auto.
    rewrite app_length, IH, map_length, seq_length. reflexivity.
  Qed.

  Lemma n2_finite init : inside m n init -> finitely_reachable succ cell_eqb init all_cells.
  Proof.
    intros Hi t [l Hl]. destruct (path_walk _ _ _ Hi Hl) as [_ Ht]. exists t.
    split; [now apply all_cells_In|apply cell_eqb_refl].
  Qed.
End N2.

Lemma cell_decides : decides_eq cell_eqb.
Proof. intros s t. apply cell_eqb_eq. Qed.

Lemma walk_cost_path cost l : forall p g, path_cost Rplus g (steps_of cost p l) = (g + walk_cost cost p l)%R.
Proof.
  induction l as [|c l IH]; intros p g; cbn [steps_of walk_cost]; [cbn; lra|].
  change (path_cost Rplus g ((tt, cost p c, c) :: steps_of cost c l)) with (path_cost Rplus (g + cost p c)%R (steps_of cost c l)).
  rewrite IH. lra.
Qed.

Section Results.
  Context {C : Type} (ltb : C -> C -> bool) (add : C -> C -> C) (zero : C) (Hlt : strict_weak_order C ltb).

  Lemma n2_sound m n cost occ h init goal fuel sol st : inside m n init ->
    n2_search ltb add zero m n cost occ h init goal fuel = Ok (Some sol, st) ->
    exists l, get_path (Some sol) = Ok (init :: l) /\ walk m n occ init l goal.
  Proof.
    intros Hi H. unfold n2_search in H.
    destruct (search_sound _ _ _ _ tt _ _ _ _ _ (decides_eq_equiv _ cell_decides) Hlt _ _ _ _ _ H)
      as (l & Hp & Hs & Hg & _).
    exists (map step_state l). split; [exact Hg|]. apply cell_eqb_eq in Hs. rewrite <- Hs.
    eapply path_walk; eauto.
  Qed.

  Lemma n2_complete m n cost occ h init goal fuel st : inside m n init ->
    n2_search ltb add zero m n cost occ h init goal fuel = Ok (None, st) ->
    forall l, ~ walk m n occ init l goal.
  Proof.
    intros Hi H l Hw. unfold n2_search in H.
    assert (Hf : cell_eqb goal goal = false).
    { eapply (search_complete cell_eqb ltb add zero h (n2_succ m n cost occ) (fun s => cell_eqb s goal)
         (fun _ _ => true) true _ cell_decides Hlt (n2_deterministic m n cost occ) _ _ _ _ H).
      exists (steps_of cost init l). now apply walk_path. }
    rewrite cell_eqb_refl in Hf. discriminate.
  Qed.

  Lemma n2_terminates m n cost occ h init goal : inside m n init ->
    forall fuel, (Z.to_nat m * Z.to_nat n < fuel)%nat ->
    exists r st, n2_search ltb add zero m n cost occ h init goal fuel = Ok (r, st).
  Proof.
    intros Hi fuel Hf. unfold n2_search.
    destruct (search_terminates cell_eqb ltb add zero tt h (n2_succ m n cost occ) (fun s => cell_eqb s goal)
         (fun _ _ => true) true (decides_eq_equiv _ cell_decides) Hlt init (all_cells m n) eq_refl
         (n2_finite m n cost occ init Hi) fuel tt) as (r & st & H & _).
    - now rewrite all_cells_length.
    - eauto.
  Qed.
End Results.

Lemma R_swo : strict_weak_order R Rltb.
Proof. exact (cost_laws_swo _ _ R_cost_laws). Qed.

Lemma n2_optimal m n (cost : cell -> cell -> R) occ h init goal fuel sol st : inside m n init ->
  (forall p q, inside m n p -> grid_step m n occ p q -> h p - h q <= cost p q)%R ->
  n2_search Rltb Rplus 0%R m n cost occ h init goal fuel = Ok (Some sol, st) ->
  exists l, get_path (Some sol) = Ok (init :: l) /\ walk m n occ init l goal /\
    get_optimal_cost 0%R (Some sol) = Some (walk_cost cost init l) /\
    forall l', walk m n occ init l' goal -> (walk_cost cost init l <= walk_cost cost init l')%R.
Proof.
  intros Hi Hcons H. pose proof H as H0. unfold n2_search in H.
  destruct (search_sound _ _ _ _ tt _ _ _ _ _ (decides_eq_equiv _ cell_decides) R_swo _ _ _ _ _ H)
    as (l & Hp & Hs & Hg & _ & Hc).
  apply cell_eqb_eq in Hs. exists (map step_state l). split; [exact Hg|].
  split. { rewrite <- Hs. eapply path_walk; eauto. }
  assert (Hw : path_cost Rplus 0%R l = walk_cost cost init (map step_state l)).
  { rewrite (steps_of_states m n cost occ l init _ Hi Hp) at 1. rewrite walk_cost_path. lra. }
  split; [now rewrite Hc, Hw|].
  intros l' Hl'. rewrite <- Hw. cbn [get_optimal_cost] in Hc. injection Hc as Hc. rewrite <- Hc.
  replace (walk_cost cost init l') with (path_cost Rplus 0%R (steps_of cost init l')) by (rewrite walk_cost_path; lra).
  apply leb_R.
  eapply (search_optimal_from cell_eqb Rltb Rplus 0%R h (n2_succ m n cost occ) (fun s => cell_eqb s goal)
    _ cell_decides R_cost_laws (n2_deterministic m n cost occ) init); eauto.
  - intros g s a c t [ls Hls] Ht. destruct (path_walk m n cost occ ls init s Hi Hls) as [_ Hin].
    apply trans_step in Ht; auto. destruct Ht as [Hst ->]. apply leb_R. specialize (Hcons s t Hin Hst). lra.
  - apply R_cancellable.
  - rewrite Hs. now apply walk_path.
Qed.
