(** Proofs about the bidirectional search in state spaces that may be infinite. *)
From Coq Require Import Reals Lra.
From Verif Require Import Base RealBase Frontier_model Frontier_spec Frontier_proofs AStar_model AStar_spec AStar_proofs
  AStar_opt_proofs AStarTree_spec AStarTree_proofs AStarInf_spec AStarInf_proofs Heuristic_proofs Bidir_model Bidir_spec Bidir_proofs
  Bidir_opt_proofs.

Section Grow.
  Context {S A Pf Pr : Type}.
  Context (eqs : S -> S -> bool) (hf hr : S -> R).
  Context (succf : Pf -> S -> list (S * A * R) * Pf) (succr : Pr -> S -> list (S * A * R) * Pr) (graph : bool).
  Context (nbf : S -> list (S * A * R)).
  Context (Heq : decides_eq eqs) (Hdet : deterministic succf nbf).
  Context (init goal : S).
  Context (Hpos : steps_cost_at_least succr 0).
  Let Heqs : equivalence S eqs := decides_eq_equiv eqs Heq.
  Let Hlt : strict_weak_order R Rltb := cost_laws_swo Rltb Rplus R_cost_laws.

  Notation node := (node S A R).
  Notation n_g := (@AStar_model.n_g S A R 0%R).
  Notation n_f := (@AStar_model.n_f S A R 0%R).
  Notation neq := (@n_eq S A R eqs).
  Notation finv := (finv (@n_cmp S A R Rltb 0%R) neq).
  Notation bi := (bi S A R Pf Pr).
  Notation loop := (bi_loop eqs Rltb Rplus 0%R hf hr succf succr graph).
  Notation fwd := (forward eqs Rltb Rplus 0%R hf succf graph).
  Notation bwd := (backward eqs Rltb Rplus 0%R hr succr graph).
  Notation fin := (finished Rltb Rplus 0%R).
  Notation stepf := (sstep eqs Rltb Rplus 0%R hf succf graph).
  Notation J := (J_sound eqs Rltb Rplus 0%R hf hr succf succr init goal).
  Notation child_of := (child_of Rplus 0%R hf).
  Notation meet := (@find_intersection S A R eqs Rltb Rplus 0%R).

  Variable offset : R.

  Definition b_ends (b : bi) : Prop :=
    exists fuel0, forall fuel, fuel0 <= fuel -> exists ok b', loop fuel offset b = Ok (ok, b').

  Lemma empty_ends b : either_empty b = true -> b_ends b.
  Proof. intros He. exists 1. intros [|fuel] Hf; [lia|]. cbn [bi_loop]. rewrite He. eauto. Qed.

  Lemma b_ends_step b b1 b2 x : fwd b = Ok b1 -> bwd b1 = Ok b2 -> fin offset b2 = Ok x -> (x = false -> b_ends b2) -> b_ends b.
  Proof.
    intros H1 H2 H3 H. destruct (either_empty b) eqn:Ee; [now apply empty_ends|].
    destruct x.
    - exists 1. intros [|fuel] Hf; [lia|]. cbn [bi_loop]. rewrite Ee, H1. cbn [bind]. rewrite H2. cbn [bind]. rewrite H3. cbn [bind]. eauto.
    - destruct (H eq_refl) as (f0 & Hf0). exists (Datatypes.S f0). intros [|fuel] Hf; [lia|]. cbn [bi_loop].
      rewrite Ee, H1. cbn [bind]. rewrite H2. cbn [bind]. rewrite H3. cbn [bind]. apply Hf0. lia.
  Qed.

  (** One turn. *)
  Definition worse (o o' : option R) : Prop := forall c, o = Some c -> exists c', o' = Some c' /\ (c' <= c)%R.
  Lemma worse_meet n e best : worse best (fst (meet n e best)).
  Proof.
    intros c Hc. destruct (meet_mono eqs Rltb Rplus 0%R Hlt n e best c Hc) as (c' & Hc' & Hl). exists c'. split; auto.
    now apply leb_R.
  Qed.

  Lemma b_turn b : J b -> either_empty b = false ->
    exists n b1 b2 x, fwd b = Ok b1 /\ bwd b1 = Ok b2 /\ fin offset b2 = Ok x /\ J b2 /\
      stepf (b_f b) n (b_f b2) /\ f_top (st_front (b_f b)) = Ok n /\
      (forall s, covers (st_expl (b_r b)) s -> covers (st_expl (b_r b2)) s) /\
      worse (b_best b) (b_best b2) /\
      (covers (st_expl (b_r b)) (n_state n) -> b_best b2 <> None).
  Proof.
    intros Hb He. destruct b as [f r best sol]. pose proof He as He'. unfold either_empty in He'. cbn [b_f b_r] in He'.
    apply orb_false_iff in He' as [Hef Her]. destruct (J_sound_finv _ _ _ _ _ _ _ _ _ _ _ Hb) as [Hff Hfr]. cbn [b_f b_r] in *.
    destruct (pop_expand_step eqs Rltb Rplus 0%R hf succf graph Heqs Hlt f Hff Hef) as (n & f' & Hp & Hs).
    assert (H1 := J_sound_fwd eqs Rltb Rplus 0%R hf hr succf succr graph Heqs init goal _ _ _ _ _ _ Hb Hs).
    destruct (pop_expand_step eqs Rltb Rplus 0%R hr succr graph Heqs Hlt r Hfr Her) as (n' & r' & Hp' & Hs').
    assert (Hq : st_queried f' <> []) by (rewrite (sstep_queried _ _ _ _ _ _ _ _ _ _ Hs); discriminate).
    assert (H2 := J_sound_rev eqs Rltb Rplus 0%R hf hr succf succr graph init goal _ _ _ _ _ _ H1 Hq Hs').
    pose proof (worse_meet n (st_expl r) best) as W1.
    pose proof (worse_meet n' (st_expl f') (fst (meet n (st_expl r) best))) as W2.
    assert (W : worse best (fst (meet n' (st_expl f') (fst (meet n (st_expl r) best))))).
    { intros c Hc. destruct (W1 c Hc) as (c1 & Hc1 & L1). destruct (W2 c1 Hc1) as (c2 & Hc2 & L2). exists c2. split; auto. lra. }
    assert (F : covers (st_expl r) (n_state n) -> fst (meet n' (st_expl f') (fst (meet n (st_expl r) best))) <> None).
    { intros (m & Hm & Hms).
      destruct (meet_found eqs Rltb Rplus 0%R Hlt n (st_expl r) best m Hm) as (m' & c & _ & _ & Hc & _).
      { now apply Heq. }
      destruct (W2 c Hc) as (c2 & Hc2 & _). congruence. }
    destruct (finished_ok eqs Rltb Rplus 0%R Heqs Hlt J (J_sound_finv eqs Rltb Rplus 0%R hf hr succf succr init goal) offset _ H2) as (x & Hx & _).
    set (p1 := meet n (st_expl r) best) in *. set (p2 := meet n' (st_expl f') (fst p1)) in *.
    exists n, (Bi f' r (fst p1) (match snd p1 with Some m => Some (n, m) | None => sol end)),
      (Bi f' r' (fst p2) (match snd p2 with Some m => Some (m, n') | None => match snd p1 with Some m => Some (n, m) | None => sol end end)), x.
    split.
    { unfold forward. cbn [b_f b_r b_best b_sol]. rewrite Hp. cbn [bind]. fold p1. now destruct p1. }
    split.
    { unfold backward. cbn [b_f b_r b_best b_sol]. rewrite Hp'. cbn [bind]. fold p2. now destruct p2. }
    split; [exact Hx|]. split; [exact H2|]. cbn [b_f b_r b_best]. split; [exact Hs|]. split.
    { unfold pop_expand, f_pop in Hp. destruct (f_top (st_front f)) as [y| | |]; try discriminate. cbn [bind] in Hp.
      destruct (expand _ _ _ _ _ _ _ _ _ _) as [z| | |]; try discriminate. cbn [bind] in Hp. injection Hp as ->. reflexivity. }
    split; [|auto].
    intros s Hc. rewrite (sstep_expl _ _ _ _ _ _ _ _ _ _ Hs'). now apply covers_insert.
  Qed.

  (** The weight of the forward frontier goes down when a short path is expanded, and never up. *)
  Lemma step_weight D (st st' : search S A R Pf) n : finv (st_front st) -> stepf st n st' ->
    (n_depth n <= D -> smalls nbf D (vec (st_front st')) < smalls nbf D (vec (st_front st))).
  Proof.
    intros Hf (fr & fr' & p & Hfr & Hn & Hmin & Hmem & Hne & Hfr' & Hu & ->) Hd. cbn [st_front].
    rewrite Hdet in Hu. pose proof (small_children Rplus 0%R hf nbf D n Hd) as Hcw.
    assert (Hnd : NoDup (n :: vec fr)).
    { constructor; [|eapply distinct_NoDup; eauto; apply Hfr]. intros Hin. specialize (Hne _ Hin). unfold n_eq in Hne.
      now rewrite (eqk_refl _ _ Heqs) in Hne. }
    assert (Hle : small nbf D n + smalls nbf D (vec fr) <= smalls nbf D (vec (st_front st))).
    { apply (smalls_incl nbf D (n :: vec fr) Hnd). intros z [<-|Hz]; auto. apply Hmem. auto. }
    assert (Hw' : smalls nbf D (vec fr') <= smalls nbf D (vec fr) + smalls nbf D (map (child_of n) (nbf (n_state n)))).
    { unfold smalls at 2 3. rewrite <- list_sum_app, <- map_app. apply smalls_incl; [eapply distinct_NoDup; eauto; apply Hfr'|].
      intros z Hz. apply in_or_app.
      destruct (upds_in eqs Rltb Rplus 0%R hf (fun _ _ => true) graph _ _ _ _ _ Hu z Hz) as [?|(t & Ht & ->)]; auto.
      right. now apply in_map. }
    lia.
  Qed.

  (** ** Once the searches have met *)
  Context (Hgrow0 : costs_grow succf Rltb Rplus 0%R (fun _ => 0%R) init).

  (** If the loop goes on after a meeting, the next forward node is at the end of a short path. *)
  Definition short_top (D : nat) (b : bi) : Prop :=
    either_empty b = true \/ exists n, f_top (st_front (b_f b)) = Ok n /\ n_depth n <= D.
  Lemma goes_on best D b :
    (forall l t, is_path succf init l t -> D < length l -> Rltb (best + offset) (path_cost Rplus 0%R l + 0)%R = true) ->
    J b -> (exists c, b_best b = Some c /\ (c <= best)%R) -> fin offset b = Ok false -> short_top D b.
  Proof.
    intros HD Hb (c & Hc & Hcb) Hx. unfold short_top. destruct (either_empty b) eqn:Ee; [auto|right].
    destruct (J_sound_finv _ _ _ _ _ _ _ _ _ _ _ Hb) as [Hff Hfr].
    pose proof Ee as Ee'. unfold either_empty in Ee'. apply orb_false_iff in Ee' as [Hef Her].
    destruct (top_min eqs Rltb Rplus 0%R Heqs Hlt _ Hff Hef) as (ft & Htf & Hinf & _).
    destruct (top_min eqs Rltb Rplus 0%R Heqs Hlt _ Hfr Her) as (rt & Htr & Hinr & _).
    exists ft. split; auto. unfold finished in Hx.
    assert (Hsol : b_sol b <> None).
    { destruct Hb as (_ & _ & Hp). intros E. rewrite E in Hp. cbn in Hp. congruence. }
    destruct (b_sol b) as [s|]; [|congruence]. rewrite Ee, Htf, Htr in Hx. cbn [bind] in Hx. rewrite Hc in Hx.
    injection Hx as Hx. apply negb_false_iff in Hx. apply Rltb_true in Hx.
    destruct (Nat.le_gt_cases (n_depth ft) D) as [?|Hdf]; auto. exfalso.
    destruct Hb as (Hsf & Hsr & _).
    assert (Hcf : chain Rplus 0%R hf succf init ft) by (destruct Hsf as (_ & Hch & _); rewrite Forall_forall in Hch; auto).
    assert (Hcr : chain Rplus 0%R hr succr goal rt) by (destruct Hsr as (_ & Hch & _); rewrite Forall_forall in Hch; auto).
    destruct (chain_path _ _ _ _ _ _ Hcf) as (l & Hl & Hg & Hlen).
    destruct (chain_path _ _ _ _ _ _ Hcr) as (lr & Hlr & Hgr & _).
    specialize (HD l _ Hl ltac:(lia)). apply Rltb_true in HD.
    assert (0 <= path_cost Rplus 0 lr)%R.
    { pose proof (path_cost_steps succr 0%R Hpos lr _ _ 0%R Hlr). lra. }
    rewrite Hg, Hgr in Hx. lra.
  Qed.

  Lemma met_low best D :
    (forall l t, is_path succf init l t -> D < length l -> Rltb (best + offset) (path_cost Rplus 0%R l + 0)%R = true) ->
    forall w b, J b -> (exists c, b_best b = Some c /\ (c <= best)%R) -> short_top D b ->
      smalls nbf D (vec (st_front (b_f b))) <= w -> b_ends b.
  Proof.
    intros HD. induction w as [w IH] using lt_wf_ind. intros b Hb (c & Hc & Hcb) Htop Hw.
    destruct (either_empty b) eqn:Ee; [now apply empty_ends|].
    destruct Htop as [?|(n & Hn & Hd)]; [congruence|].
    destruct (b_turn b Hb Ee) as (n' & b1 & b2 & x & H1 & H2 & Hx & Hb2 & Hs & Hn' & _ & Hwo & _).
    assert (n' = n) by congruence. subst n'.
    apply (b_ends_step b b1 b2 x H1 H2 Hx). intros ->.
    destruct (Hwo c Hc) as (c2 & Hc2 & Hle).
    destruct (J_sound_finv _ _ _ _ _ _ _ _ _ _ _ Hb) as [Hff _].
    pose proof (step_weight D _ _ _ Hff Hs Hd) as Hless.
    assert (Hc' : exists c', b_best b2 = Some c' /\ (c' <= best)%R) by (exists c2; split; [auto|lra]).
    apply (IH (smalls nbf D (vec (st_front (b_f b2))))); [lia|exact Hb2|exact Hc'| |lia].
    now apply (goes_on best).
  Qed.

  Lemma met_ends b : J b -> b_best b <> None -> b_ends b.
  Proof.
    intros Hb Hbest. destruct (b_best b) as [best|] eqn:Eb; [|congruence].
    destruct (either_empty b) eqn:Ee; [now apply empty_ends|].
    destruct (Hgrow0 (best + offset)%R) as (D & HD).
    destruct (b_turn b Hb Ee) as (n & b1 & b2 & x & H1 & H2 & Hx & Hb2 & Hs & Hn & _ & Hwo & _).
    apply (b_ends_step b b1 b2 x H1 H2 Hx). intros ->.
    pose proof (Hwo best Eb) as Hc'. eapply (met_low best D HD); eauto. eapply goes_on; eauto.
  Qed.

  (** ** Until the searches meet *)
  Context (Hgrow : costs_grow succf Rltb Rplus 0%R hf init).
  Notation isgoal := (fun s => eqs s goal).
  Notation inv := (inv_tree eqs Rltb Rplus 0%R hf succf isgoal nbf init).
  Notation opened := (opened isgoal nbf init).
  Definition before (b : bi) : Prop := J b /\ inv (b_f b) /\ covers (st_expl (b_r b)) goal.

  Lemma before_step (f f' : search S A R Pf) n : inv f -> stepf f n f' -> eqs (n_state n) goal = false -> inv f' /\ opened f'.
  Proof.
    intros Hf (fr & fr' & p & Hfr & Hn & Hmin & Hmem & Hne & Hfr' & Hu & ->) Hg. split.
    - eapply (inv_tree_step eqs Rltb Rplus 0%R hf succf isgoal (fun _ _ => true) graph nbf Heq Hdet init f n fr); eauto.
    - eapply (opened_step eqs Rltb Rplus 0%R hf succf isgoal (fun _ _ => true) graph nbf Heq Hdet init f n fr); eauto.
  Qed.

  Lemma drain2 s : (forall b, before b -> opened (b_f b) -> covers (st_expl (b_f b)) s -> b_ends b) -> forall K D,
    (forall l t, is_path succf init l t -> D < length l -> Rltb K (path_cost Rplus 0%R l + hf t)%R = true) ->
    forall w b, before b -> (exists y, In y (vec (st_front (b_f b))) /\ n_state y = s /\ (n_f y <= K)%R) ->
      smalls nbf D (vec (st_front (b_f b))) <= w -> b_ends b.
  Proof.
    intros Hexp K D HD. induction w as [w IH] using lt_wf_ind. intros b (Hb & Hi & Hg) (y & Hy & Hys & Hk) Hw.
    destruct (either_empty b) eqn:Ee; [now apply empty_ends|].
    destruct (b_turn b Hb Ee) as (n & b1 & b2 & x & H1 & H2 & Hx & Hb2 & Hs & Hn & Hcov & Hwo & Hmeet).
    apply (b_ends_step b b1 b2 x H1 H2 Hx). intros ->.
    destruct (eqs (n_state n) goal) eqn:Eg.
    { apply Heq in Eg. apply met_ends; auto. apply Hmeet. now rewrite Eg. }
    destruct (before_step _ _ _ Hi Hs Eg) as (Hi2 & Hop).
    assert (Hbef : before b2) by (split; [auto|split; [auto|now apply Hcov]]).
    pose proof Hs as Hs'.
    destruct Hs' as (fr & fr' & p & Hfr & Hnin & Hmin & Hmem & Hne & Hfr' & Hu & Ef).
    assert (Hle0 : (n_f n <= K)%R) by (specialize (Hmin y Hy); apply leb_R in Hmin; lra).
    apply Hmem in Hy as [->|Hy].
    { apply Hexp; auto. rewrite (sstep_expl _ _ _ _ _ _ _ _ _ _ Hs), <- Hys. apply (covers_inserted eqs Heq). }
    assert (Hd : n_depth n <= D).
    { destruct (Nat.le_gt_cases (n_depth n) D) as [?|Hd]; auto. exfalso.
      pose proof (inv_chain eqs Rltb Rplus 0%R hf succf isgoal nbf init (b_f b) n Hi Hnin) as Hc.
      destruct (chain_path _ _ _ _ _ _ Hc) as (l & Hl & Hgl & Hlen).
      assert (Hf : n_f n = (n_g n + hf (n_state n))%R).
      { destruct Hi as (_ & _ & [Hv|Ht]).
        - rewrite Hv in Hnin. destruct Hnin as [<-|[]]. cbn in Hd. lia.
        - rewrite Forall_forall in Ht. now apply Ht. }
      specialize (HD l _ Hl ltac:(lia)). rewrite <- Hgl in HD. apply Rltb_true in HD. lra. }
    destruct (J_sound_finv _ _ _ _ _ _ _ _ _ _ _ Hb) as [Hff _].
    pose proof (step_weight D _ _ _ Hff Hs Hd) as Hless.
    apply (IH (smalls nbf D (vec (st_front (b_f b2))))); [lia|exact Hbef| |lia].
    destruct (upds_key eqs Rltb Rplus 0%R hf (fun _ _ => true) graph Heq R_cost_laws _ _ _ _ _ Hu s K) as (z & Hz & Hzs & Hzk).
    { exists y. split; auto. split; auto. now apply leb_R. }
    exists z. rewrite Ef. cbn [st_front]. split; auto. split; auto. now apply leb_R.
  Qed.

  Lemma waits_ends2 s b : (forall b, before b -> opened (b_f b) -> covers (st_expl (b_f b)) s -> b_ends b) ->
    before b -> covers (vec (st_front (b_f b))) s -> b_ends b.
  Proof.
    intros Hexp Hb (y & Hy & Hys). destruct (Hgrow (n_f y)) as (D & HD).
    eapply (drain2 s Hexp (n_f y) D HD); eauto. exists y. split; auto. split; auto. lra.
  Qed.

  Lemma path_ends2 l : forall s, is_path succf s l goal ->
    forall b, before b -> opened (b_f b) -> covers (st_expl (b_f b)) s -> b_ends b.
  Proof.
    induction l as [|x l IH]; intros s Hl b Hb (H0 & H1 & H2) (m & Hm & Hms); cbn [is_path] in Hl.
    - specialize (H1 m Hm). cbn beta in H1. rewrite Hms, Hl, (eqk_refl _ _ Heqs) in H1. discriminate.
    - destruct Hl as [Htr Hl]. pose proof (trans_det succf nbf Hdet _ _ _ _ Htr) as Hin. rewrite <- Hms in Hin.
      destruct (H2 m _ Hm Hin) as [Hc|Hc]; cbn [fst] in Hc.
      + eapply IH; eauto. split; auto.
      + eapply waits_ends2; eauto.
  Qed.
End Grow.

(** The search ends, and with Success. *)
Lemma bi_found {S A Pf Pr} (eqs : S -> S -> bool) (hf hr : S -> R)
    (succf : Pf -> S -> list (S * A * R) * Pf) (succr : Pr -> S -> list (S * A * R) * Pr) graph nbf nbr :
  decides_eq eqs -> deterministic succf nbf -> deterministic succr nbr -> can_go_back succf succr ->
  forall init goal, steps_cost_at_least succr 0 ->
  costs_grow succf Rltb Rplus 0%R (fun _ => 0%R) init -> costs_grow succf Rltb Rplus 0%R hf init ->
  forall l pf pr, is_path succf init l goal ->
  exists fuel0, forall fuel, fuel0 <= fuel -> exists b,
    bi_search eqs Rltb Rplus 0%R hf hr succf succr graph fuel init goal pf pr = Ok (true, b).
Proof.
  intros Heq Hdf Hdr Hback init goal Hpos H0 Hh l pf pr Hl.
  pose proof (decides_eq_equiv eqs Heq) as Heqs. pose proof (cost_laws_swo Rltb Rplus R_cost_laws) as Hlt.
  assert (Hend : exists fuel0, forall fuel, fuel0 <= fuel -> exists ok b,
    bi_search eqs Rltb Rplus 0%R hf hr succf succr graph fuel init goal pf pr = Ok (ok, b)).
  { unfold bi_search.
    destruct (@init_search_ok S A R Pf eqs Rltb 0%R Heqs Hlt init pf) as (frf & -> & Hf & Hvf). cbn [bind].
    destruct (@init_search_ok S A R Pr eqs Rltb 0%R Heqs Hlt goal pr) as (frr & -> & Hr & Hvr). cbn [bind].
    eapply (waits_ends2 eqs hf hr succf succr graph nbf Heq Hdf init goal Hpos _ H0 Hh init).
    - intros b Hb Hop Hc. eapply path_ends2; eauto.
    - split; [now apply J_sound_init|]. split; [now apply inv_start|].
      exists (Root goal). cbn. auto.
    - exists (Root init). cbn [b_f st_front]. rewrite Hvf. cbn. auto. }
  destruct Hend as (f0 & Hf0). exists f0. intros fuel Hfuel. destruct (Hf0 fuel Hfuel) as ([|] & b & Hb); [eauto|].
  exfalso. eapply (bi_complete eqs Rltb Rplus 0%R hf hr succf succr graph nbf nbr); eauto. now exists l.
Qed.

(** ** Costs over the reals *)
Lemma bi_found_real :
  forall {S A Pf Pr : Type} (eqs : S -> S -> bool) (hf hr : S -> R)
    (succf : Pf -> S -> list (S * A * R) * Pf) (succr : Pr -> S -> list (S * A * R) * Pr) (graph : bool)
    (nbf nbr : S -> list (S * A * R)),
    decides_eq eqs -> deterministic succf nbf -> deterministic succr nbr -> can_go_back succf succr ->
    forall e, (0 < e)%R -> steps_cost_at_least succf e -> steps_cost_at_least succr 0 -> (forall s, (0 <= hf s)%R) ->
    forall init goal l pf pr, is_path succf init l goal ->
    exists fuel0, forall fuel, fuel0 <= fuel -> exists b,
      bi_search eqs Rltb Rplus 0%R hf hr succf succr graph fuel init goal pf pr = Ok (true, b).
Proof.
  intros S A Pf Pr eqs hf hr succf succr graph nbf nbr Heq Hdf Hdr Hb e He Hs Hr Hh init goal l pf pr Hl.
  eapply (bi_found eqs hf hr succf succr graph nbf nbr Heq Hdf Hdr Hb init goal Hr); eauto.
  - apply (real_grow (fun _ => 0%R) succf e He Hs). intros. lra.
  - exact (real_grow hf succf e He Hs Hh init).
Qed.

(** ** Searches that never meet *)
Section Apart.
  Context {S A C P : Type}.
  Context (eqs : S -> S -> bool) (ltb : C -> C -> bool) (add : C -> C -> C) (zero : C).
  Context (h : S -> C) (succ : P -> S -> list (S * A * C) * P) (graph : bool) (nb : S -> list (S * A * C)).
  Context (Heq : decides_eq eqs) (Hcost : cost_laws ltb add) (Hdet : deterministic succ nb).
  Context (init : S) (f : nat -> S) (Hf : runaway succ init f) (other : S -> Prop).
  Context (Hcheap : forall i l l' t, is_path succ init l (f i) -> is_path succ init l' t -> l' <> [] -> other t ->
    ltb (add (path_cost add zero l) (h (f i))) (add (path_cost add zero l') (h t)) = true).
  Let Heqs : equivalence S eqs := decides_eq_equiv eqs Heq.
  Let Hlt : strict_weak_order C ltb := cost_laws_swo ltb add Hcost.
  Notation step := (sstep eqs ltb add zero h succ graph).
  Notation sound := (inv_sound eqs ltb add zero h succ init).
  Notation nogoal := (fun _ : S => false).

  (** One side of the search: at the start, or later. *)
  Definition at_start (st : search S A C P) : Prop :=
    vec (st_front st) = [Root init] /\ st_expl st = [Root init].
  Definition later (st : search S A C P) : Prop :=
    inv_cover eqs ltb zero nogoal nb init st /\ opened nogoal nb init st /\
    forall y, In y (vec (st_front st)) -> n_f zero y = add (n_g zero y) (h (n_state y)) /\ n_depth y <> 0.

  Lemma later_step (st st' : search S A C P) n : sound st -> at_start st \/ later st -> step st n st' -> later st'.
  Proof.
    intros Hso Hst (fr & fr' & p & Hfr & Hn & Hmin & Hmem & Hne & Hfr' & Hu & ->).
    assert (Hcov : inv_cover eqs ltb zero nogoal nb init st).
    { destruct Hst as [[H1 H2]|[H _]]; auto. split; [apply Hso|]. left. auto. }
    assert (Hold : forall y, In y (vec fr) -> n_f zero y = add (n_g zero y) (h (n_state y)) /\ n_depth y <> 0).
    { intros y Hy. assert (Hy' : In y (vec (st_front st))) by (apply Hmem; auto).
      destruct Hst as [[H1 H2]|(_ & _ & Ht)]; [|now apply Ht].
      rewrite H1 in Hn, Hy'. destruct Hn as [<-|[]], Hy' as [<-|[]]. specialize (Hne _ Hy). unfold n_eq in Hne.
      now rewrite (eqk_refl _ _ Heqs) in Hne. }
    split; [|split].
    - eapply (inv_cover_step eqs ltb add zero h succ nogoal (fun _ _ => true) graph nb Heq Hdet init st n fr); eauto.
    - eapply (opened_step eqs ltb add zero h succ nogoal (fun _ _ => true) graph nb Heq Hdet init st n fr); eauto.
      split; [exact Hcov|]. split; [exact Hso|]. destruct Hst as [[H1 _]|(_ & _ & Ht)]; [now left|right].
      apply Forall_forall. intros y Hy. now apply Ht.
    - cbn [st_front]. intros y Hy.
      destruct (upds_in eqs ltb add zero h (fun _ _ => true) graph _ _ _ _ _ Hu y Hy) as [?|([[t a] c] & Ht & ->)]; auto.
      split; [reflexivity|]. cbn. lia.
  Qed.

  Lemma side_open (st : search S A C P) : sound st -> at_start st \/ later st -> f_is_empty (st_front st) = false.
  Proof.
    intros Hso Hst. unfold f_is_empty. destruct (vec (st_front st)) eqn:Ev; auto. exfalso. destruct Hst as [[H1 _]|(_ & Hop & _)]; [congruence|].
    destruct (runaway_waits eqs succ nogoal nb Heq Hdet init f Hf st Hop) as (i & y & Hy & _). now rewrite Ev in Hy.
  Qed.

  (** What is popped later is not on the other side. *)
  Lemma apart (st st' : search S A C P) n : sound st -> later st -> step st n st' -> ~ other (n_state n).
  Proof.
    intros (_ & Hch & _) (_ & Hop & Ht) (fr & fr' & p & _ & Hn & Hmin & _) Ho.
    destruct (runaway_waits eqs succ nogoal nb Heq Hdet init f Hf st Hop) as (i & y & Hy & Hyi).
    rewrite Forall_forall in Hch. pose proof (Hmin y Hy) as Hle. unfold leb in Hle.
    destruct (Ht n Hn) as [Hfn Hdn]. destruct (Ht y Hy) as [Hfy _]. rewrite Hfn, Hfy in Hle.
    destruct (chain_path _ _ _ _ _ _ (Hch n Hn)) as (ln & Hln & Hgn & Hlen).
    destruct (chain_path _ _ _ _ _ _ (Hch y Hy)) as (ly & Hly & Hgy & _).
    rewrite Hgn, Hgy, Hyi in Hle. rewrite Hyi in Hly.
    rewrite (Hcheap i ly ln (n_state n) Hly Hln) in Hle; auto; [discriminate|].
    intros ->. cbn in Hlen. congruence.
  Qed.
End Apart.

Section Never.
  Context {S A C Pf Pr : Type}.
  Context (eqs : S -> S -> bool) (ltb : C -> C -> bool) (add : C -> C -> C) (zero : C) (hf hr : S -> C).
  Context (succf : Pf -> S -> list (S * A * C) * Pf) (succr : Pr -> S -> list (S * A * C) * Pr) (graph : bool).
  Context (nbf nbr : S -> list (S * A * C)).
  Context (Heq : decides_eq eqs) (Hcost : cost_laws ltb add) (Hdf : deterministic succf nbf) (Hdr : deterministic succr nbr).
  Context (init goal : S) (Hne : init <> goal) (f r : nat -> S) (Hf : runaway succf init f) (Hr : runaway succr goal r).
  Context (Hcf : forall i l l' t, is_path succf init l (f i) -> is_path succf init l' t -> l' <> [] -> reachable succr goal t ->
    ltb (add (path_cost add zero l) (hf (f i))) (add (path_cost add zero l') (hf t)) = true).
  Context (Hcr : forall i l l' t, is_path succr goal l (r i) -> is_path succr goal l' t -> l' <> [] -> reachable succf init t ->
    ltb (add (path_cost add zero l) (hr (r i))) (add (path_cost add zero l') (hr t)) = true).
  Let Heqs : equivalence S eqs := decides_eq_equiv eqs Heq.
  Let Hlt : strict_weak_order C ltb := cost_laws_swo ltb add Hcost.
  Notation stepf := (sstep eqs ltb add zero hf succf graph).
  Notation stepr := (sstep eqs ltb add zero hr succr graph).
  Notation soundf := (inv_sound eqs ltb add zero hf succf init).
  Notation soundr := (inv_sound eqs ltb add zero hr succr goal).
  Notation laterf := (later eqs ltb add zero hf nbf init).
  Notation laterr := (later eqs ltb add zero hr nbr goal).

  Lemma no_meet n e best : (forall m, In m e -> n_state m <> n_state n) ->
    @find_intersection S A C eqs ltb add zero n e best = (best, None).
  Proof.
    intros H. unfold find_intersection. destruct (find _ e) as [m|] eqn:E; auto.
    apply find_some in E as [E1 E2]. apply Heq in E2. exfalso. now apply (H m).
  Qed.

  Lemma expl_f_reachable (st : search S A C Pf) m : soundf st -> In m (st_expl st) -> reachable succf init (n_state m).
  Proof.
    intros (_ & _ & Hc) Hm. rewrite Forall_forall in Hc. destruct (chain_path _ _ _ _ _ _ (Hc m Hm)) as (l & Hl & _). now exists l.
  Qed.
  Lemma expl_r_reachable (st : search S A C Pr) m : soundr st -> In m (st_expl st) -> reachable succr goal (n_state m).
  Proof.
    intros (_ & _ & Hc) Hm. rewrite Forall_forall in Hc. destruct (chain_path _ _ _ _ _ _ (Hc m Hm)) as (l & Hl & _). now exists l.
  Qed.

  Lemma apart_loop offset fuel : forall b, soundf (b_f b) -> soundr (b_r b) -> b_sol b = None ->
    (at_start init (b_f b) /\ at_start goal (b_r b)) \/ (laterf (b_f b) /\ laterr (b_r b)) ->
    bi_loop eqs ltb add zero hf hr succf succr graph fuel offset b = NoFuel.
  Proof.
    induction fuel as [|fuel IH]; intros [sf sr best sol] Hsf Hsr Hsol Hst; [reflexivity|]. cbn [b_f b_r b_sol] in *. subst sol.
    cbn [bi_loop]. unfold either_empty. cbn [b_f b_r].
    assert (Hst1 : at_start init sf \/ laterf sf) by tauto. assert (Hst2 : at_start goal sr \/ laterr sr) by tauto.
    rewrite (side_open eqs ltb add zero hf succf nbf Heq Hdf init f Hf sf Hsf Hst1).
    rewrite (side_open eqs ltb add zero hr succr nbr Heq Hdr goal r Hr sr Hsr Hst2). cbn [orb].
    destruct (pop_expand_step eqs ltb add zero hf succf graph Heqs Hlt sf (proj1 Hsf)) as (n & sf' & Hp & Hs);
      [now apply (side_open eqs ltb add zero hf succf nbf Heq Hdf init f Hf)|].
    destruct (pop_expand_step eqs ltb add zero hr succr graph Heqs Hlt sr (proj1 Hsr)) as (n' & sr' & Hp' & Hs');
      [now apply (side_open eqs ltb add zero hr succr nbr Heq Hdr goal r Hr)|].
    pose proof (sstep_sound eqs ltb add zero hf succf graph init _ _ _ Hsf Hs) as Hsf'.
    pose proof (sstep_sound eqs ltb add zero hr succr graph goal _ _ _ Hsr Hs') as Hsr'.
    assert (Hex : forall m, In m (st_expl sr) -> n_state m <> n_state n).
    { intros m Hm Em. destruct Hst as [[[H1 H2] [H3 H4]]|[Hl1 Hl2]].
      - rewrite H4 in Hm. destruct Hm as [<-|[]]. apply sstep_In in Hs. rewrite H1 in Hs. destruct Hs as [<-|[]]. cbn in Em. congruence.
      - apply (apart eqs ltb add zero hf succf graph nbf Heq Hdf init f Hf (reachable succr goal) Hcf sf sf' n Hsf Hl1 Hs).
        rewrite <- Em. exact (expl_r_reachable sr m Hsr Hm). }
    assert (Hex' : forall m, In m (st_expl sf') -> n_state m <> n_state n').
    { intros m Hm Em. destruct Hst as [[[H1 H2] [H3 H4]]|[Hl1 Hl2]].
      - rewrite (sstep_expl _ _ _ _ _ _ _ _ _ _ Hs), H2 in Hm. apply sstep_In in Hs. rewrite H1 in Hs. destruct Hs as [<-|[]].
        apply sstep_In in Hs'. rewrite H3 in Hs'. destruct Hs' as [<-|[]].
        apply e_insert_In in Hm as [->|[<-|[]]]; cbn in Em; congruence.
      - apply (apart eqs ltb add zero hr succr graph nbr Heq Hdr goal r Hr (reachable succf init) Hcr sr sr' n' Hsr Hl2 Hs').
        rewrite <- Em. exact (expl_f_reachable sf' m Hsf' Hm). }
    unfold forward. cbn [b_f b_r b_best b_sol]. rewrite Hp. cbn [bind]. rewrite (no_meet _ _ _ Hex). cbn [bind].
    unfold backward. cbn [b_f b_r b_best b_sol]. rewrite Hp'. cbn [bind]. rewrite (no_meet _ _ _ Hex'). cbn [bind].
    unfold finished. cbn [b_sol bind]. apply IH; cbn [b_f b_r b_sol]; auto. right. split.
    - exact (later_step eqs ltb add zero hf succf graph nbf Heq Hdf init sf sf' n Hsf Hst1 Hs).
    - exact (later_step eqs ltb add zero hr succr graph nbr Heq Hdr goal sr sr' n' Hsr Hst2 Hs').
  Qed.

  Lemma apart_search fuel pf pr : bi_search eqs ltb add zero hf hr succf succr graph fuel init goal pf pr = NoFuel.
  Proof.
    unfold bi_search.
    destruct (@init_search_ok S A C Pf eqs ltb zero Heqs Hlt init pf) as (frf & -> & Hff & Hvf). cbn [bind].
    destruct (@init_search_ok S A C Pr eqs ltb zero Heqs Hlt goal pr) as (frr & -> & Hfr & Hvr). cbn [bind].
    apply apart_loop; cbn [b_f b_r b_sol]; auto; try now apply inv_sound_init.
    left. split; split; auto.
  Qed.
End Never.
