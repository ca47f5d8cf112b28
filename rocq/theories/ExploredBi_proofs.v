(** The states of a path are explored; explored states of the search in both directions. *)
From Verif Require Import Base Frontier_model Frontier_spec Frontier_proofs AStar_model AStar_spec AStar_proofs AStar_opt_proofs Bidir_model
  Bidir_spec Bidir_proofs Bidir_opt_proofs Explored_model Explored_proofs.
From Coq Require Import ZifyBool ZifyNat.

(** The states on the way from a node to its root. *)
Fixpoint lineage {S A C} (n : node S A C) : list S :=
  match n with
  | Root s => [s]
  | Child s _ _ _ p => s :: lineage p
  end.

Lemma lineage_head {S A C} (n : node S A C) : exists l, lineage n = n_state n :: l.
Proof. destruct n; cbn; eauto. Qed.

Lemma fill_lineage {S A C} (n : node S A C) : forall acc, fill_back (@n_state S A C) (Datatypes.S (n_depth n)) (Some n) acc = Ok (rev (lineage n) ++ acc).
Proof.
  induction n as [s|s a g f q IH]; intros acc; [reflexivity|]. cbn [n_depth]. change (fill_back n_state (Datatypes.S (n_depth q)) (Some q) (s :: acc) = Ok (rev (lineage (Child s a g f q)) ++ acc)).
  rewrite IH. cbn [lineage rev]. now rewrite <- app_assoc.
Qed.
Lemma path_lineage {S A C} (n : node S A C) : get_path (Some n) = Ok (rev (lineage n)).
Proof. unfold get_path. rewrite fill_lineage. now rewrite app_nil_r. Qed.

Section Line.
  Context {S A C P : Type}.
  Context (eqs : S -> S -> bool) (ltb : C -> C -> bool) (add : C -> C -> C) (zero : C).
  Context (h : S -> C) (succ : P -> S -> list (S * A * C) * P) (guard : S -> S -> bool) (graph : bool).
  Context (Heq : decides_eq eqs).
  Notation node := (node S A C).

  (** All states on the way to an explored node, and to the parent of a node of the frontier, are explored. *)
  Definition inv_line (st : search S A C P) : Prop :=
    (forall m, In m (st_expl st) -> incl (lineage m) (get_explored_states st)) /\
    (forall m, In m (vec (st_front st)) -> incl (tl (lineage m)) (get_explored_states st)).

  Lemma origin (n : node) e ts l l' : upds eqs ltb add zero h guard graph n e ts l l' -> forall z, In z l' -> In z l \/ exists t, In t ts /\ z = child_of add zero h n t.
  Proof.
    induction 1 as [l|t ts l l1 l2 Hu Hus IH]; intros z Hz; auto. destruct (IH z Hz) as [Hz1|(t' & Ht' & ->)]; [|right; exists t'; cbn; auto].
    destruct Hu as [? ? Hm|? ? ? ? Hm|? ? Hm|? ? ? ? ? ? ? Hm]; apply Hm in Hz1; auto.
    - destruct Hz1 as [->|Hz1]; auto. right. exists t. cbn. auto.
    - destruct Hz1 as [->|[Hz1 _]]; auto. right. exists t. cbn. auto.
  Qed.

  Lemma inserted (n : node) e : incl (map n_state e) (map n_state (e_insert eqs n e)) /\ In (n_state n) (map n_state (e_insert eqs n e)).
  Proof.
    unfold e_insert. destruct (e_contains eqs n e) eqn:E; cbn; [|split; [intros x Hx; now right|now left]]. split; [apply incl_refl|].
    unfold e_contains in E. apply existsb_exists in E as (m & Hm & E). apply Heq in E. rewrite <- E. now apply in_map.
  Qed.

  Lemma line_step (st : search S A C P) n fr fr' p q : inv_line st -> In n (vec (st_front st)) ->
    (forall y, In y (vec (st_front st)) <-> y = n \/ In y (vec fr)) ->
    upds eqs ltb add zero h guard graph n (e_insert eqs n (st_expl st)) (fst (succ (st_prop st) (n_state n))) (vec fr) (vec fr') ->
    inv_line (Search fr' (e_insert eqs n (st_expl st)) p q) /\ incl (lineage n) (get_explored_states (Search fr' (e_insert eqs n (st_expl st)) p q)).
  Proof.
    intros [H1 H2] Hn Hmem Hu. destruct (inserted n (st_expl st)) as [I1 I2].
    assert (Hl : incl (lineage n) (map n_state (e_insert eqs n (st_expl st)))).
    { destruct (lineage_head n) as [l El]. specialize (H2 n Hn). rewrite El in *. cbn [tl] in H2. intros x [<-|Hx]; auto. }
    unfold inv_line, get_explored_states in *. cbn [st_expl st_front]. split; [split|exact Hl].
    - intros m Hm. apply e_insert_In in Hm as [->|Hm]; [exact Hl|]. intros x Hx. apply I1, (H1 m Hm), Hx.
    - intros m Hm. destruct (origin _ _ _ _ _ Hu m Hm) as [Hm0|(t & Ht & ->)].
      + intros x Hx. apply I1, (H2 m); [apply Hmem; now right|exact Hx].
      + destruct t as [[s a] c]. exact Hl.
  Qed.

  Lemma line_init fr init p : vec fr = [Root init] -> inv_line (Search fr [Root init] p []).
  Proof. intros Hv. split; cbn; intros m Hm; [destruct Hm as [<-|[]]|rewrite Hv in Hm; destruct Hm as [<-|[]]]; intros x Hx; cbn in Hx |- *; tauto. Qed.
End Line.

(** Every state of the path but the last was explored. *)
Lemma path_explored {S A C P : Type} (eqs : S -> S -> bool) (ltb : C -> C -> bool) (add : C -> C -> C) (zero : C)
    (h : S -> C) (succ : P -> S -> list (S * A * C) * P) (issol : S -> bool) (guard : S -> S -> bool) (graph : bool) :
  decides_eq eqs -> strict_weak_order C ltb ->
  forall fuel init p n st, search_path eqs ltb add zero h succ issol guard graph fuel init p = Ok (Some n, st) ->
  exists l, get_path (Some n) = Ok (l ++ [n_state n]) /\ forall s, In s l -> In s (get_explored_states st).
Proof.
  intros Heq Hlt fuel init p n st H. pose proof (decides_eq_equiv eqs Heq) as Heqs. apply search_path_loop in H as (fr & Hf & Hv & H); auto.
  apply (loop_ind eqs ltb add zero h succ issol guard graph Heqs Hlt (fun st => finv (@n_cmp S A C ltb zero) (@n_eq S A C eqs) (st_front st) /\ inv_line st)) in H.
  - destruct H as (st0 & [_ [_ L]] & Hn & _ & _ & E1 & _). rewrite path_lineage. destruct (lineage_head n) as [l El]. specialize (L n Hn). rewrite El in *.
    exists (rev l). split; [reflexivity|]. intros s Hs. apply in_rev in Hs. specialize (L s Hs). unfold get_explored_states in *. now rewrite E1.
  - intros st0 [X _]. exact X.
  - intros st0 n0 fr0 fr1 p0 [_ L] X1 X2 X3 X4 X5 X6 X7 X8. split; [exact X7|]. eapply (line_step eqs ltb add zero h succ guard graph Heq st0 n0 fr0); eauto.
  - split; [exact Hf|]. now apply line_init.
Qed.

Section Both.
  Context {S A C Pf Pr : Type} (eqs : S -> S -> bool) (ltb : C -> C -> bool) (add : C -> C -> C) (zero : C).
  Context (hf hr : S -> C) (succf : Pf -> S -> list (S * A * C) * Pf) (succr : Pr -> S -> list (S * A * C) * Pr).
  Context (Heq : decides_eq eqs) (Hlt : strict_weak_order C ltb).
  Let Heqs : equivalence S eqs := decides_eq_equiv eqs Heq.

  Definition side {P} (h : S -> C) (succ : P -> S -> list (S * A * C) * P) init (st : search S A C P) : Prop :=
    inv_once eqs ltb add zero h succ init st /\ In init (get_explored_states st) /\ inv_line st.

  Lemma side_step {P} (h : S -> C) (succ : P -> S -> list (S * A * C) * P) init st n st' :
    side h succ init st -> sstep eqs ltb add zero h succ true st n st' ->
    side h succ init st' /\ incl (lineage n) (get_explored_states st') /\ incl (get_explored_states st) (get_explored_states st').
  Proof.
    intros (H1 & H2 & H3) Hs. pose proof (sstep_once eqs ltb add zero h succ true Heqs init st n st' eq_refl H1 Hs) as H1'.
    destruct Hs as (fr & fr' & p & F1 & F2 & F3 & F4 & F5 & F6 & F7 & ->).
    destruct (line_step eqs ltb add zero h succ (fun _ _ => true) true Heq st n fr fr' p (n_state n :: st_queried st) H3 F2 F4 F7) as [L1 L2].
    destruct (inserted eqs Heq n (st_expl st)) as [I1 _].
    split; [|split; [exact L2|exact I1]]. split; [exact H1'|]. split; [apply I1, H2|exact L1].
  Qed.

  Lemma side_result {P} (h : S -> C) (succ : P -> S -> list (S * A * C) * P) init (st : search S A C P) : side h succ init st ->
    NoDup (get_explored_states st) /\ (forall s, In s (get_explored_states st) <-> s = init \/ In s (st_queried st)) /\
    forall s, In s (get_explored_states st) -> reachable succ init s.
  Proof.
    intros (((_ & _ & Hc) & Hd & Hph) & Hin & _). split; [now apply (distinct_NoDup eqs Heq)|]. split.
    - intros s. unfold get_explored_states in *. destruct Hph as [(-> & -> & _)|(-> & _)]; cbn; [intuition|]. split; [auto|]. intros [->|Hs]; auto.
    - intros s Hs. unfold get_explored_states in Hs. apply in_map_iff in Hs as (m & <- & Hm). rewrite Forall_forall in Hc. specialize (Hc _ Hm).
      destruct m as [s|s a g f q]; [inversion Hc; subst; apply reachable_refl|]. exact (chain_reachable add zero a h succ init _ Hc).
  Qed.

  Definition J_expl init goal (b : bi S A C Pf Pr) : Prop :=
    side hf succf init (b_f b) /\ side hr succr goal (b_r b) /\
    match b_sol b with
    | None => True
    | Some (x, y) => n_state x = n_state y /\ incl (lineage x) (get_explored_states (b_f b)) /\ incl (lineage y) (get_explored_states (b_r b))
    end.

  Lemma bi_explored_ind fuel init goal pf pr ok b :
    bi_search eqs ltb add zero hf hr succf succr true fuel init goal pf pr = Ok (ok, b) -> J_expl init goal b /\ (ok = true -> b_sol b <> None).
  Proof.
    intros H. destruct (bi_search_loop eqs ltb add zero hf hr succf succr true Heqs Hlt init goal fuel pf pr) as (frf & frr & Hb & Hf & Hvf & Hr & Hvr). rewrite Hb in H.
    apply (bi_loop_ind eqs ltb add zero hf hr succf succr true Heqs Hlt (J_expl init goal)) in H.
    - destruct H as [HJ H]. split; [exact HJ|]. intros ->. apply H.
    - intros b0 (((Sf & _) & _) & ((Sr & _) & _) & _). split; [apply Sf|apply Sr].
    - intros f r best sol n f' (H1 & H2 & H3) Hs. cbn [b_f b_r b_sol] in *. destruct (side_step hf succf init f n f' H1 Hs) as (K1 & K2 & K3).
      split; [exact K1|]. split; [exact H2|]. cbn [b_sol b_f b_r]. destruct (snd _) as [m|] eqn:E.
      + apply meet_new in E as (E1 & E2 & _). apply Heq in E2. split; [auto|]. split; [exact K2|]. apply H2. exact E1.
      + destruct sol as [[x y]|]; auto. destruct H3 as (Y1 & Y2 & Y3). split; [exact Y1|]. split; [|exact Y3]. intros z Hz. apply K3, Y2, Hz.
    - intros f r best sol n r' (H1 & H2 & H3) _ Hs. cbn [b_f b_r b_sol] in *. destruct (side_step hr succr goal r n r' H2 Hs) as (K1 & K2 & K3).
      split; [exact H1|]. split; [exact K1|]. cbn [b_sol b_f b_r]. destruct (snd _) as [m|] eqn:E.
      + apply meet_new in E as (E1 & E2 & _). apply Heq in E2. split; [auto|]. split; [|exact K2]. apply H1. exact E1.
      + destruct sol as [[x y]|]; auto. destruct H3 as (Y1 & Y2 & Y3). split; [exact Y1|]. split; [exact Y2|]. intros z Hz. apply K3, Y3, Hz.
    - split; [|split; [|exact I]]; (split; [apply inv_once_init; auto|]; split; [cbn; auto|now apply line_init]).
    - cbn. congruence.
  Qed.

  Lemma bi_explored fuel init goal pf pr ok b :
    bi_search eqs ltb add zero hf hr succf succr true fuel init goal pf pr = Ok (ok, b) ->
    (NoDup (get_explored_states (b_f b)) /\ (forall s, In s (get_explored_states (b_f b)) <-> s = init \/ In s (st_queried (b_f b))) /\
     forall s, In s (get_explored_states (b_f b)) -> reachable succf init s) /\
    (NoDup (get_explored_states (b_r b)) /\ (forall s, In s (get_explored_states (b_r b)) <-> s = goal \/ In s (st_queried (b_r b))) /\
     forall s, In s (get_explored_states (b_r b)) -> reachable succr goal s).
  Proof. intros H. apply bi_explored_ind in H as [(H1 & H2 & _) _]. split; [exact (side_result _ _ _ _ H1)|exact (side_result _ _ _ _ H2)]. Qed.

  (** Every state of the path is explored, the meeting state from both sides. *)
  Lemma bi_path_explored fuel init goal pf pr b :
    bi_search eqs ltb add zero hf hr succf succr true fuel init goal pf pr = Ok (true, b) ->
    exists l1 s l2, bi_path (b_sol b) = Ok (l1 ++ s :: s :: l2) /\
      (forall t, In t l1 -> In t (get_explored_states (b_f b))) /\ In s (get_explored_states (b_f b)) /\ In s (get_explored_states (b_r b)) /\
      (forall t, In t l2 -> In t (get_explored_states (b_r b))).
  Proof.
    intros H. apply bi_explored_ind in H as [(_ & _ & H) Hs]. specialize (Hs eq_refl). destruct (b_sol b) as [[x y]|]; [|congruence]. destruct H as (E & Ix & Iy).
    destruct (lineage_head x) as [lx Elx], (lineage_head y) as [ly Ely]. exists (rev lx), (n_state x), ly. unfold bi_path. cbn [option_map fst snd].
    rewrite !path_lineage. cbn [bind]. rewrite rev_involutive. rewrite Elx, Ely in *. cbn [rev]. split; [now rewrite <- app_assoc, E|].
    split; [intros t Ht; apply in_rev in Ht; apply Ix; now right|]. split; [apply Ix; now left|]. split; [apply Iy; left; auto|]. intros t Ht. apply Iy. now right.
  Qed.

  (** After a failure one of the searches explored all that it can reach, and no state was explored by both. *)
  Lemma bi_failure_explored nbf nbr : deterministic succf nbf -> deterministic succr nbr ->
    forall fuel init goal pf pr b,
    bi_search eqs ltb add zero hf hr succf succr true fuel init goal pf pr = Ok (false, b) ->
    ((forall t, In t (get_explored_states (b_f b)) <-> reachable succf init t) \/ (forall t, In t (get_explored_states (b_r b)) <-> reachable succr goal t)) /\
    forall t, In t (get_explored_states (b_f b)) -> In t (get_explored_states (b_r b)) -> False.
  Proof.
    intros Hdf Hdr fuel init goal pf pr b H. destruct (bi_explored _ _ _ _ _ _ _ H) as [(_ & _ & Rf) (_ & _ & Rr)].
    destruct (bi_search_loop eqs ltb add zero hf hr succf succr true Heqs Hlt init goal fuel pf pr) as (frf & frr & Hb & Hf & Hvf & Hr & Hvr). rewrite Hb in H.
    apply (bi_loop_ind eqs ltb add zero hf hr succf succr true Heqs Hlt
      (fun b => J_meet ltb add zero init goal b /\ J_sound eqs ltb add zero hf hr succf succr init goal b /\
        inv_cover eqs ltb zero (fun _ => false) nbf init (b_f b) /\
        inv_cover eqs ltb zero (fun _ => false) nbr goal (b_r b))) in H.
    - destruct H as [(Hm & (_ & _ & Hp) & Hcf & Hcr) [Hs He]]. unfold pair_ok in Hp. rewrite Hs in Hp.
      destruct Hm as (M1 & M2 & M3 & M4). unfold either_empty in He. split.
      + apply orb_true_iff in He as [He|He]; apply is_empty_vec in He; [left|right]; intros t; (split; [auto|]); intros Ht.
        * destruct (cover_closed eqs ltb zero succf nbf init _ Hdf Hcf He t Ht) as (m & Hm & <-). unfold get_explored_states. now apply in_map.
        * destruct (cover_closed eqs ltb zero succr nbr goal _ Hdr Hcr He t Ht) as (m & Hm & <-). unfold get_explored_states. now apply in_map.
      + assert (Hq : st_queried (b_f b) <> []).
        { apply orb_true_iff in He as [He|He]; apply is_empty_vec in He.
          - intros Hq. destruct (M1 Hq) as [_ Hv]. congruence.
          - apply M3. intros Hq. specialize (M2 Hq). congruence. }
        intros t Tf Tr. unfold get_explored_states in *. apply in_map_iff in Tf as (m & E & Hm), Tr as (m' & E' & Hm').
        destruct (M4 Hq m m' Hm Hm' ltac:(congruence)) as (_ & _ & c & _ & _ & _ & _ & Hc & _). congruence.
    - intros b0 (_ & Hs & _). eapply J_sound_finv; eauto.
    - intros f r best sol n f' (Hm & Hs & H1 & H2) Hst. cbn [b_f b_r] in *.
      split; [eapply J_meet_fwd; eauto|]. split; [eapply J_sound_fwd; eauto|].
      split; [eapply sstep_cover; eauto|auto].
    - intros f r best sol n r' (Hm & Hs & H1 & H2) Hq Hst. cbn [b_f b_r] in *.
      split; [eapply J_meet_rev; eauto|]. split; [eapply J_sound_rev; eauto|].
      split; [auto|eapply sstep_cover; eauto].
    - split; [now apply J_meet_init|]. split; [now apply J_sound_init|]. cbn.
      split; (split; [assumption|left; auto]).
    - cbn. congruence.
  Qed.
End Both.
