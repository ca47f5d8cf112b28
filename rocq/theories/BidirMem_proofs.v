(** The bidirectional search with pointers computes what the one without pointers computes. *)
From Verif Require Import Base Frontier_model Frontier_spec FrontierRel_proofs AStar_model AStar_spec AStar_proofs AStarMem_model AStarMem_spec AStarMem_proofs
  Bidir_model Bidir_spec Bidir_proofs Explored_model BidirMem_model BidirMem_spec.

(** ** One of the searches *)
Section One.
Context {S A C P : Type}.
Context (eqs : S -> S -> bool) (ltb : C -> C -> bool) (add : C -> C -> C) (zero : C) (dflt : A).
Notation node := (AStar_model.node S A C).
Notation memory := (AStarMem_model.memory S A C).
Notation mstate := (AStarMem_model.mstate S A C P).
Notation repr := (@repr S A C zero dflt).

Lemma repr_inj (m : memory) (n : node) : forall (n' : node) a, repr m a n -> repr m a n' -> n' = n.
Proof.
  induction n as [s|s act g f p IH]; intros [s'|s' act' g' f' p'] a; cbn [AStarMem_proofs.repr]; intros (N & H) (N' & H'); destruct (live m a) as [o|]; try congruence;
    destruct (H o eq_refl) as (? & ? & ? & ? & X), (H' o eq_refl) as (? & ? & ? & ? & X'); try (destruct X as (? & ? & _); congruence); try (destruct X' as (? & ? & _); congruence); try congruence.
  destruct X as (pa & Ep & Rp), X' as (pa' & Ep' & Rp'). assert (pa' = pa) by congruence. subst pa'. rewrite (IH p' pa Rp Rp'). congruence.
Qed.

Variables (h : S -> C) (succ : P -> S -> list (S * A * C) * P) (graph : bool) (init : S) (root : nat).
Notation sim := (sim (P := P) add zero dflt h succ init root).

(** What a step keeps: nodes stay as they are. *)
Definition kept_nodes (m m' : memory) : Prop := forall a n, repr m a n -> repr m' a n.

Lemma expand_kept (st : mstate) st' a n : sim st st' -> repr (ms_mem st) a n -> chain add zero h succ init n ->
  res_rel (fun x y => sim x y /\ kept_nodes (ms_mem st) (ms_mem x)) (ms_expand eqs ltb add h succ (fun _ _ => true) graph a st) (expand eqs ltb add zero h succ (fun _ _ => true) graph n st').
Proof.
  intros M R Hn. pose proof M as [Hr Hp Hi He Hs]. destruct (repr_data _ _ _ a n R) as (o & E & Es & _). unfold ms_expand, expand, load. rewrite E. cbn [bind]. rewrite Es, Hp.
  destruct (succ (st_prop st') (n_state n)) as [ts p] eqn:Q.
  pose proof (insert_rel eqs zero dflt _ _ _ a n o He E Es R) as He'. rewrite Es in He'.
  eapply bind_rel; [apply (expand_all_sim eqs ltb add zero dflt h succ (fun _ => true) (fun _ _ => true) graph init root ts _ _ _ a n _ _ Hi R Hn He')|].
  - intros t It. exists (st_prop st'). rewrite Q. cbn [fst]. now destruct t as [[? ?] ?].
  - intros [m1 f1] f1' (X & I1). cbn in *. split; [constructor; cbn; auto; now apply (expl_ext zero dflt (ms_mem st))|]. intros b nb Rb. now apply (repr_ext zero dflt (ms_mem st)).
Qed.

Lemma pop_expand_sim (st : mstate) st' : sim st st' ->
  res_rel (fun x y => repr (ms_mem (snd x)) (fst x) (fst y) /\ sim (snd x) (snd y) /\ kept_nodes (ms_mem st) (ms_mem (snd x)))
    (ms_pop_expand eqs ltb add h succ graph st) (pop_expand eqs ltb add zero graph h succ st').
Proof.
  intros M. pose proof M as [Hr Hp Hi He Hs]. unfold ms_pop_expand, pop_expand.
  rewrite (looking_ok zero (ms_mem st) (repr (ms_mem st)) [] (ms_front st) (st_front st')) by (try apply repr_faithful; try apply (i_front _ _ _ _ _ _ _ _ _ _ Hi); intros x []).
  eapply bind_rel; [apply (pop_rel _ _ (repr (ms_mem st)) _ (n_eq eqs) (eq_faithful eqs zero _ _ (repr_faithful zero dflt _)) _ _ (i_front _ _ _ _ _ _ _ _ _ _ Hi))|].
  intros [a f1] [n f1'] (R & F1). cbn [fst snd] in *. destruct (repr_data _ _ _ a n R) as (o & E & Es & _).
  assert (Hi1 : inv add zero dflt h succ init root (ms_mem st) f1 f1') by (destruct Hi; constructor; auto).
  destruct (i_chain _ _ _ _ _ _ _ _ _ _ Hi a o E) as (n' & R' & Hn). rewrite (repr_inj _ n n' a R R') in Hn.
  eapply bind_rel; [apply (expand_kept (MState (ms_mem st) f1 (ms_expl st) (ms_root st) (ms_sol st) (ms_prop st)) (Search f1' (st_expl st') (st_prop st') (st_queried st')) a n); [|exact R|exact Hn]; constructor; cbn; auto|].
  intros st2 st2' (M2 & K). cbn in *. split; [apply K; exact R|]. split; auto.
Qed.

Lemma top_cost_sim (st : mstate) st' : sim st st' ->
  ms_top_cost st = (do n <- f_top (st_front st'); Ok (n_g zero n)).
Proof.
  intros M. pose proof M as [Hr Hp Hi He Hs]. unfold ms_top_cost.
  rewrite (looking_ok zero (ms_mem st) (repr (ms_mem st)) [] (ms_front st) (st_front st')) by (try apply repr_faithful; try apply (i_front _ _ _ _ _ _ _ _ _ _ Hi); intros x []).
  destruct (i_front _ _ _ _ _ _ _ _ _ _ Hi) as [Hv _]. apply rev_rel in Hv. unfold f_top. destruct Hv as [|a n r r' H1 H2]; cbn [bind]; auto.
  destruct (repr_data _ _ _ a n H1) as (o & E & _ & _ & Eg & _). unfold load. rewrite E. cbn. now rewrite Eg.
Qed.

Lemma find_sim (m : memory) e e' (s : S) : expl_rel zero dflt m e e' ->
  match find (fun x => eqs (fst x) s) e, find (fun n => eqs (n_state n) s) e' with
  | Some (_, a), Some n => repr m a n
  | None, None => True
  | _, _ => False
  end.
Proof.
  induction 1 as [|[t a] n e e' (E & R) H IH]; cbn; auto. cbn in E, R. subst t. destruct (eqs (n_state n) s); auto.
Qed.

Lemma explored_sim (m : memory) e e' : expl_rel zero dflt m e e' -> map fst e = map n_state e'.
Proof. induction 1 as [|x y e e' (E & _) H IH]; cbn; congruence. Qed.
End One.

(** ** Both searches *)
Section Both.
Context {S A C Pf Pr : Type}.
Context (eqs : S -> S -> bool) (ltb : C -> C -> bool) (add : C -> C -> C) (zero : C) (dflt : A) (graph : bool).
Notation node := (AStar_model.node S A C).
Notation bmem := (BidirMem_model.bmem S A C Pf Pr).
Notation bi := (Bidir_model.bi S A C Pf Pr).
Notation repr := (@AStarMem_proofs.repr S A C zero dflt).

Section Search.
Variables (hf hr : S -> C) (succf : Pf -> S -> list (S * A * C) * Pf) (succr : Pr -> S -> list (S * A * C) * Pr) (init goal : S) (rf rr : nat).

Record bsim (b : bmem) (b' : bi) : Prop := {
  bs_f : sim add zero dflt hf succf init rf (bm_f b) (b_f b');
  bs_r : sim add zero dflt hr succr goal rr (bm_r b) (b_r b');
  bs_best : bm_best b = b_best b';
  bs_sol : match b_sol b' with
           | None => bm_fsol b = None /\ bm_rsol b = None
           | Some (n, n') => exists a a', bm_fsol b = Some (Fwd, a) /\ repr (ms_mem (bm_f b)) a n /\ bm_rsol b = Some (Rev, a') /\ repr (ms_mem (bm_r b)) a' n'
           end
}.

Lemma forward_sim b b' : bsim b b' ->
  res_rel bsim (bm_forward eqs ltb add hf succf graph b) (forward eqs ltb add zero hf succf graph b').
Proof.
  intros [Hf Hr Hb Hs]. unfold bm_forward, forward. eapply bind_rel; [apply (pop_expand_sim eqs ltb add zero dflt hf succf graph init rf _ _ Hf)|].
  intros [a f] [n f'] (R & Hf' & K). cbn [fst snd] in *. unfold bm_intersection, deref, find_intersection. cbn [region fst snd bm_f bm_r bm_best explored_of other].
  destruct (repr_data _ _ _ a n R) as (o & E & Es & _ & Eg & _). unfold load. rewrite E. cbn [bind]. rewrite Es.
  pose proof (find_sim eqs zero dflt _ _ _ (n_state n) (s_expl _ _ _ _ _ _ _ _ _ Hr)) as F.
  assert (Hs' : match b_sol b' with
           | None => bm_fsol b = None /\ bm_rsol b = None
           | Some (n, n') => exists a a', bm_fsol b = Some (Fwd, a) /\ repr (ms_mem f) a n /\ bm_rsol b = Some (Rev, a') /\ repr (ms_mem (bm_r b)) a' n'
           end).
  { destruct (b_sol b') as [[n1 n2]|]; auto. destruct Hs as (a1 & a2 & E1 & R1 & E2 & R2). exists a1, a2. auto. }
  destruct (find _ (ms_expl (bm_r b))) as [[t a2]|], (find _ (st_expl (b_r b'))) as [n2|]; try contradiction; cbn [bind].
  - destruct (repr_data _ _ _ a2 n2 F) as (o2 & E2 & _ & _ & Eg2 & _). rewrite E2. cbn [bind]. rewrite Eg, Eg2, Hb.
    destruct (lt_best ltb _ (b_best b')); cbn; constructor; cbn; auto. exists a, a2. auto.
  - cbn. constructor; cbn; auto.
Qed.

Lemma backward_sim b b' : bsim b b' ->
  res_rel bsim (bm_backward eqs ltb add hr succr graph b) (backward eqs ltb add zero hr succr graph b').
Proof.
  intros [Hf Hr Hb Hs]. unfold bm_backward, backward. eapply bind_rel; [apply (pop_expand_sim eqs ltb add zero dflt hr succr graph goal rr _ _ Hr)|].
  intros [a r] [n r'] (R & Hr' & K). cbn [fst snd] in *. unfold bm_intersection, deref, find_intersection. cbn [region fst snd bm_f bm_r bm_best explored_of other].
  destruct (repr_data _ _ _ a n R) as (o & E & Es & _ & Eg & _). unfold load. rewrite E. cbn [bind]. rewrite Es.
  pose proof (find_sim eqs zero dflt _ _ _ (n_state n) (s_expl _ _ _ _ _ _ _ _ _ Hf)) as F.
  assert (Hs' : match b_sol b' with
           | None => bm_fsol b = None /\ bm_rsol b = None
           | Some (n, n') => exists a a', bm_fsol b = Some (Fwd, a) /\ repr (ms_mem (bm_f b)) a n /\ bm_rsol b = Some (Rev, a') /\ repr (ms_mem r) a' n'
           end).
  { destruct (b_sol b') as [[n1 n2]|]; auto. destruct Hs as (a1 & a2 & E1 & R1 & E2 & R2). exists a1, a2. auto. }
  destruct (find _ (ms_expl (bm_f b))) as [[t a2]|], (find _ (st_expl (b_f b'))) as [n2|]; try contradiction; cbn [bind].
  - destruct (repr_data _ _ _ a2 n2 F) as (o2 & E2 & _ & _ & Eg2 & _). rewrite E2. cbn [bind]. rewrite Eg, Eg2, Hb.
    destruct (lt_best ltb _ (b_best b')); cbn; constructor; cbn; auto. exists a2, a. auto.
  - cbn. constructor; cbn; auto.
Qed.

Lemma empty_sim b b' : bsim b b' -> bm_either_empty b = either_empty b'.
Proof.
  intros [Hf Hr _ _]. unfold bm_either_empty, either_empty.
  now rewrite (is_empty_rel _ _ _ _ _ (i_front _ _ _ _ _ _ _ _ _ _ (s_inv _ _ _ _ _ _ _ _ _ Hf))), (is_empty_rel _ _ _ _ _ (i_front _ _ _ _ _ _ _ _ _ _ (s_inv _ _ _ _ _ _ _ _ _ Hr))).
Qed.

Lemma finished_sim offset b b' : bsim b b' -> bm_finished ltb add offset b = Bidir_model.finished ltb add zero offset b'.
Proof.
  intros M. pose proof M as [Hf Hr Hb Hs]. unfold bm_finished, Bidir_model.finished. destruct (b_sol b') as [[n n']|].
  - destruct Hs as (a & a' & -> & _ & -> & _). rewrite (empty_sim b b' M). destruct (either_empty b'); auto.
    rewrite (top_cost_sim add zero dflt hf succf init rf _ _ Hf), (top_cost_sim add zero dflt hr succr goal rr _ _ Hr), Hb.
    destruct (f_top (st_front (b_f b'))) as [tf| | |], (f_top (st_front (b_r b'))) as [tr| | |]; reflexivity.
  - destruct Hs as (-> & _). reflexivity.
Qed.

Lemma loop_bsim fuel offset : forall b b', bsim b b' ->
  res_rel (fun x y => fst x = fst y /\ bsim (snd x) (snd y)) (bm_loop eqs ltb add hf hr succf succr graph fuel offset b)
    (bi_loop eqs ltb add zero hf hr succf succr graph fuel offset b').
Proof.
  induction fuel as [|k IH]; intros b b' M; cbn [bm_loop bi_loop]; [exact I|]. rewrite (empty_sim b b' M). destruct (either_empty b'); [cbn; auto|].
  eapply bind_rel; [apply (forward_sim b b' M)|]. intros b1 b1' M1. eapply bind_rel; [apply (backward_sim b1 b1' M1)|]. intros b2 b2' M2.
  rewrite (finished_sim offset b2 b2' M2). destruct (Bidir_model.finished _ _ _ _ b2') as [[|]| | |]; cbn; auto.
Qed.

(** What the caller sees. *)
Lemma bm_path_ok b b' : bsim b b' -> bm_path b = bi_path (b_sol b').
Proof.
  intros [Hf Hr _ Hs]. unfold bm_path, bi_path. destruct (b_sol b') as [[n n']|]; cbn [option_map fst snd get_path].
  - destruct Hs as (a & a' & -> & R & -> & R'). unfold path_from. cbn [fst snd region].
    rewrite (depth_ok eqs ltb add zero dflt _ _ a n (i_tree _ _ _ _ _ _ _ _ _ _ (s_inv _ _ _ _ _ _ _ _ _ Hf)) R), (depth_ok eqs ltb add zero dflt _ _ a' n' (i_tree _ _ _ _ _ _ _ _ _ _ (s_inv _ _ _ _ _ _ _ _ _ Hr)) R'). cbn [bind].
    rewrite (fill_ok zero dflt ob_state n_state (ms_mem (bm_f b))) with (cur' := Some n), (fill_ok zero dflt ob_state n_state (ms_mem (bm_r b))) with (cur' := Some n'); auto;
      intros c nc o Rc E; destruct (repr_data _ _ _ c nc Rc) as (o' & E' & Es & _); congruence.
  - destruct Hs as (-> & ->). reflexivity.
Qed.

Lemma bm_cost_ok b b' : bsim b b' -> bm_cost add b = Ok (bi_cost add zero (b_sol b')).
Proof.
  intros [Hf Hr _ Hs]. unfold bm_cost, bi_cost. destruct (b_sol b') as [[n n']|]; cbn [option_map fst snd get_optimal_cost].
  - destruct Hs as (a & a' & -> & R & -> & R'). unfold cost_from, deref, load. cbn [fst snd region].
    destruct (repr_data _ _ _ a n R) as (o & E & _ & _ & Eg & _), (repr_data _ _ _ a' n' R') as (o' & E' & _ & _ & Eg' & _). rewrite E, E'. cbn. congruence.
  - destruct Hs as (-> & ->). reflexivity.
Qed.
End Search.

(** ** Several searches *)
Definition bgood (b : bmem) : Prop := good (bm_f b) /\ good (bm_r b).

Lemma sim_good {P} (h : S -> C) (succ : P -> S -> list (S * A * C) * P) init root st st' : sim add zero dflt h succ init root st st' -> good st.
Proof. intros [Hr _ Hi _ _]. unfold good. rewrite Hr. exact (i_tree _ _ _ _ _ _ _ _ _ _ Hi). Qed.

Notation request := (@bi_request S A C Pf Pr).

(** The state after a search. *)
Definition bfinished (q : request) (x : @bi_answer S C) (b : bmem) : Prop :=
  exists rf rr b', bsim (bq_hf q) (bq_hr q) (bq_succf q) (bq_succr q) (bq_init q) (bq_goal q) rf rr b b'.

Lemma bfinished_good q x b : bfinished q x b -> bgood b.
Proof. intros (rf & rr & b' & [Hf Hr _ _]). split; eapply sim_good; eauto. Qed.

Lemma bcall_sim q b pf pr : bgood b -> ms_prop (bm_f b) = pf -> ms_prop (bm_r b) = pr ->
  res_rel (fun x y => fst x = fst y /\ (ms_prop (bm_f (snd x)), ms_prop (bm_r (snd x))) = snd y /\ bfinished q (fst x) (snd x))
    (bm_call eqs ltb add zero dflt graph q b) (bi_call eqs ltb add zero graph q pf pr).
Proof.
  intros (Gf & Gr) Ef Er. unfold bm_call, bi_call, bm_search, bi_search.
  destruct (init_sim eqs ltb add zero dflt (bq_hf q) (bq_succf q) (bq_init q) (bm_f b) pf Gf Ef) as (rf & Mf).
  destruct (init_sim eqs ltb add zero dflt (bq_hr q) (bq_succr q) (bq_goal q) (bm_r b) pr Gr Er) as (rr & Mr).
  assert (X : res_rel (fun x y => fst x = fst y /\ bsim (bq_hf q) (bq_hr q) (bq_succf q) (bq_succr q) (bq_init q) (bq_goal q) rf rr (snd x) (snd y))
    (do f <- ms_init eqs ltb zero dflt (bq_init q) (bm_f b); do r <- ms_init eqs ltb zero dflt (bq_goal q) (bm_r b);
     bm_loop eqs ltb add (bq_hf q) (bq_hr q) (bq_succf q) (bq_succr q) graph (bq_fuel q) (add (bq_hf q (bq_goal q)) (bq_hr q (bq_goal q))) (BMem f r None None None))
    (do f <- init_search eqs ltb zero (bq_init q) pf; do r <- init_search eqs ltb zero (bq_goal q) pr;
     bi_loop eqs ltb add zero (bq_hf q) (bq_hr q) (bq_succf q) (bq_succr q) graph (bq_fuel q) (add (bq_hf q (bq_goal q)) (bq_hr q (bq_goal q))) (Bi f r None None))).
  { eapply bind_rel; [exact Mf|]. intros f f' Hf. eapply bind_rel; [exact Mr|]. intros r r' Hr. apply loop_bsim. constructor; cbn; auto. }
  eapply bind_rel; [exact X|]. intros [found b1] [found' b1'] (E & M). cbn [fst snd] in *. subst found'.
  rewrite (bm_path_ok _ _ _ _ _ _ _ _ _ _ M), (bm_cost_ok _ _ _ _ _ _ _ _ _ _ M). destruct (bi_path (b_sol b1')) as [path| | |]; cbn; auto.
  pose proof M as [Hf Hr _ _]. split; [|split; [|exists rf, rr, b1'; exact M]].
  - f_equal. unfold get_explored_states. now rewrite (explored_sim _ _ _ _ _ (s_expl _ _ _ _ _ _ _ _ _ Hf)), (explored_sim _ _ _ _ _ (s_expl _ _ _ _ _ _ _ _ _ Hr)).
  - now rewrite (s_prop _ _ _ _ _ _ _ _ _ Hf), (s_prop _ _ _ _ _ _ _ _ _ Hr).
Qed.

Lemma brun_sim (qs : list request) : forall b pf pr, bgood b -> ms_prop (bm_f b) = pf -> ms_prop (bm_r b) = pr ->
  res_rel (fun x y => fst x = y /\ bgood (snd x)) (bm_run eqs ltb add zero dflt graph qs b) (bi_run eqs ltb add zero graph qs pf pr).
Proof.
  induction qs as [|q qs IH]; intros b pf pr G Ef Er; cbn [bm_run bi_run]; [cbn; auto|].
  eapply bind_rel; [apply (bcall_sim q b pf pr G Ef Er)|]. intros [x b1] [y [pf1 pr1]] (E1 & E2 & Fi). cbn [fst snd] in *. injection E2 as E2 E3. subst y.
  eapply bind_rel; [apply (IH b1 _ _ (bfinished_good _ _ _ Fi) E2 E3)|]. intros [xs b2] ys (E4 & G2). cbn [fst snd] in *. cbn. subst. auto.
Qed.

Lemma brun_last (qs : list request) q : forall b pf pr xs b2, bgood b -> ms_prop (bm_f b) = pf -> ms_prop (bm_r b) = pr -> bm_run eqs ltb add zero dflt graph (qs ++ [q]) b = Ok (xs, b2) ->
  exists x, bfinished q x b2.
Proof.
  induction qs as [|q1 qs IH]; intros b pf pr xs b2 G Ef Er E; cbn [app bm_run] in E.
  - pose proof (bcall_sim q b pf pr G Ef Er) as K. destruct (bm_call _ _ _ _ _ _ q b) as [[x b1]| | |]; try discriminate. cbn [bind] in E. injection E as <- <-.
    destruct (bi_call _ _ _ _ _ q pf pr) as [[y p1]| | |]; cbn in K; try contradiction. destruct K as (_ & _ & Fi). eauto.
  - pose proof (bcall_sim q1 b pf pr G Ef Er) as K. destruct (bm_call _ _ _ _ _ _ q1 b) as [[x b1]| | |]; try discriminate. cbn [bind] in E.
    destruct (bi_call _ _ _ _ _ q1 pf pr) as [[y [pf1 pr1]]| | |]; cbn in K; try contradiction. destruct K as (_ & E2 & Fi). injection E2 as E2 E3.
    destruct (bm_run _ _ _ _ _ _ (qs ++ [q]) b1) as [[xs2 b3]| | |] eqn:E4; try discriminate. cbn [bind] in E. injection E as <- <-.
    exact (IH b1 pf1 pr1 xs2 b3 (bfinished_good _ _ _ Fi) E2 E3 E4).
Qed.

Lemma bnew_good pf pr : bgood (bm_new (S := S) (A := A) (C := C) pf pr).
Proof. split; cbn; auto. Qed.

Lemma brun_same (qs : list request) pf pr : rmap fst (bm_run eqs ltb add zero dflt graph qs (bm_new pf pr)) = bi_run eqs ltb add zero graph qs pf pr.
Proof.
  pose proof (brun_sim qs (bm_new pf pr) pf pr (bnew_good pf pr) eq_refl eq_refl) as H. destruct (bm_run _ _ _ _ _ _ qs _) as [[xs b]| | |], (bi_run _ _ _ _ _ qs pf pr); cbn in *; try contradiction; auto.
  destruct H as (-> & _). reflexivity.
Qed.

Lemma brun_good (qs : list request) pf pr xs b : bm_run eqs ltb add zero dflt graph qs (bm_new pf pr) = Ok (xs, b) -> bgood b.
Proof.
  intros E. pose proof (brun_sim qs (bm_new pf pr) pf pr (bnew_good pf pr) eq_refl eq_refl) as H. rewrite E in H. destruct (bi_run _ _ _ _ _ qs pf pr); cbn in H; try contradiction. apply H.
Qed.

Lemma bplain_no_ub (qs : list request) : Frontier_spec.equivalence S eqs -> Frontier_spec.strict_weak_order C ltb -> forall pf pr,
  match bi_run eqs ltb add zero graph qs pf pr with Ok _ => True | NoFuel => True | UB => False | Throw => False end.
Proof.
  intros He Hl. induction qs as [|q qs IH]; intros pf pr; cbn [bi_run]; auto. unfold bi_call.
  pose proof (bi_no_ub eqs ltb add zero (bq_hf q) (bq_hr q) (bq_succf q) (bq_succr q) graph He Hl (bq_init q) (bq_goal q) (bq_fuel q) pf pr) as H.
  destruct (bi_search _ _ _ _ _ _ _ _ _ _ _ _ _ _) as [[found b]| | |]; auto. cbn [bind].
  assert (Q : forall sol : option node, exists l, get_path sol = Ok l) by (intros [n|]; cbn [get_path]; [destruct (fill_back_depth (@n_state S A C) n []) as (l & r & _ & E); rewrite E|]; eauto).
  unfold bi_path. destruct (Q (option_map fst (b_sol b))) as (l & ->), (Q (option_map snd (b_sol b))) as (l' & ->). cbn [bind fst snd].
  specialize (IH (st_prop (b_f b)) (st_prop (b_r b))). destruct (bi_run _ _ _ _ _ qs _ _); auto.
Qed.

Lemma brun_no_ub (qs : list request) pf pr : Frontier_spec.equivalence S eqs -> Frontier_spec.strict_weak_order C ltb ->
  match bm_run eqs ltb add zero dflt graph qs (bm_new pf pr) with Ok _ => True | NoFuel => True | UB => False | Throw => False end.
Proof. intros He Hl. pose proof (bplain_no_ub qs He Hl pf pr) as H. rewrite <- brun_same in H. destruct (bm_run _ _ _ _ _ _ qs _); auto. Qed.

(** ** After a search *)
Lemma sim_pointers {P} (h : S -> C) (succ : P -> S -> list (S * A * C) * P) init root st st' :
  sim add zero dflt h succ init root st st' -> sound_pointers st.
Proof.
  intros [Hr Hp Hi He Hs]. set (q := AStarMem_spec.Request init h succ (fun _ => true) 0). set (x := AStarMem_spec.Answer (S := S) (A := A) (C := C) false [] [] None).
  assert (F : AStarMem_proofs.finished add zero dflt q x st).
  { exists root, None, st'. split; [|reflexivity]. constructor; cbn; auto. }
  destruct (finished_pointers add zero dflt q x st F) as (H1 & H2 & H3 & _ & H4). repeat split; auto.
Qed.

Lemma brun_pointers (qs : list request) q pf pr xs b : bm_run eqs ltb add zero dflt graph (qs ++ [q]) (bm_new pf pr) = Ok (xs, b) ->
  sound_pointers (bm_f b) /\ sound_pointers (bm_r b) /\
  (forall p, bm_fsol b = Some p -> fst p = Fwd /\ live (ms_mem (bm_f b)) (snd p) <> None) /\
  (forall p, bm_rsol b = Some p -> fst p = Rev /\ live (ms_mem (bm_r b)) (snd p) <> None).
Proof.
  intros E. destruct (brun_last qs q _ pf pr xs b (bnew_good pf pr) eq_refl eq_refl E) as (x & rf & rr & b' & [Hf Hr _ Hs]).
  split; [exact (sim_pointers _ _ _ _ _ _ Hf)|]. split; [exact (sim_pointers _ _ _ _ _ _ Hr)|].
  destruct (b_sol b') as [[n n']|].
  - destruct Hs as (a & a' & -> & R & -> & R'). destruct (repr_data _ _ _ a n R) as (o & Eo & _), (repr_data _ _ _ a' n' R') as (o' & Eo' & _).
    split; intros p [= <-]; cbn; split; congruence.
  - destruct Hs as (-> & ->). split; discriminate.
Qed.

Lemma brun_no_leak (qs : list request) pf pr xs b : bm_run eqs ltb add zero dflt graph qs (bm_new pf pr) = Ok (xs, b) ->
  exists mf mr, bm_destroy b = Ok (mf, mr) /\ (forall a, live mf a = None) /\ forall a, live mr a = None.
Proof.
  intros E. destruct (brun_good qs pf pr xs b E) as (Gf & Gr). destruct (good_destroy ltb add zero _ Gf) as (mf & Ef & Lf), (good_destroy ltb add zero _ Gr) as (mr & Er & Lr).
  exists mf, mr. unfold bm_destroy. rewrite Er. cbn [bind]. rewrite Ef. cbn. auto.
Qed.

(** ** Pointers of an earlier search *)
Lemma init_root {P} init (st st1 : AStarMem_model.mstate S A C P) : good st -> ms_init eqs ltb zero dflt init st = Ok st1 ->
  exists r, ms_root st1 = Some r /\ forall a, live (ms_mem st) a <> None -> a < r.
Proof.
  intros G E. unfold ms_init in E.
  assert (X : exists m, match ms_root st with None => Ok (ms_mem st) | Some r => delete (ms_mem st) r end = Ok m /\ forall a, live (ms_mem st) a <> None -> a < next m).
  { unfold good in G. destruct (ms_root st) as [r|].
    - destruct (delete_tree ltb add zero _ _ G) as (m2 & E2 & N & _). exists m2. split; auto. intros a Ha. rewrite N. destruct (live (ms_mem st) a) as [o|] eqn:Ea; [|congruence]. exact (t_next _ _ G a o Ea).
    - exists (ms_mem st). split; auto. intros a Ha. now rewrite G in Ha. }
  destruct X as (m & Em & Hm). rewrite Em in E. cbn [bind allocate] in E. destruct (looking _ _ _ _) as [[u fr]| | |]; try discriminate. cbn [bind] in E.
  destruct (load _ _) as [o| | |]; try discriminate. cbn [bind] in E. injection E as <-. exists (next m). auto.
Qed.

Lemma pop_expand_root {P} (h : S -> C) (succ : P -> S -> list (S * A * C) * P) (st : AStarMem_model.mstate S A C P) n st1 :
  ms_pop_expand eqs ltb add h succ graph st = Ok (n, st1) -> ms_root st1 = ms_root st.
Proof.
  unfold ms_pop_expand, ms_expand. destruct (looking _ _ _ _) as [[a fr]| | |]; try discriminate. cbn [bind ms_mem]. destruct (load _ _) as [o| | |]; try discriminate. cbn [bind ms_prop].
  destruct (succ _ _) as [ts p]. destruct (ms_expand_all _ _ _ _ _ _ _ _ _ _) as [[m fr']| | |]; try discriminate. cbn. intros [= <- <-]. reflexivity.
Qed.

Lemma intersection_searches d p (b b1 : bmem) : bm_intersection eqs ltb add d p b = Ok b1 -> bm_f b1 = bm_f b /\ bm_r b1 = bm_r b.
Proof.
  unfold bm_intersection. destruct (deref b p) as [oa| | |]; try discriminate. cbn [bind]. destruct (find _ _) as [[s a]|]; [|intros [= <-]; auto].
  destruct (deref b _) as [ob| | |]; try discriminate. cbn [bind]. destruct (lt_best _ _ _), d; intros [= <-]; auto.
Qed.

Lemma loop_roots hf hr succf succr fuel offset : forall (b : bmem) found b1,
  bm_loop eqs ltb add hf hr succf succr graph fuel offset b = Ok (found, b1) -> ms_root (bm_f b1) = ms_root (bm_f b) /\ ms_root (bm_r b1) = ms_root (bm_r b).
Proof.
  induction fuel as [|k IH]; intros b found b1; cbn [bm_loop]; [discriminate|]. destruct (bm_either_empty b); [intros [= _ <-]; auto|].
  unfold bm_forward, bm_backward. destruct (ms_pop_expand eqs ltb add hf succf graph (bm_f b)) as [[n f]| | |] eqn:Ef; try discriminate. cbn [bind].
  destruct (bm_intersection _ _ _ Fwd _ _) as [b2| | |] eqn:E2; try discriminate. cbn [bind]. apply intersection_searches in E2 as (F2 & R2). cbn in F2, R2.
  destruct (ms_pop_expand eqs ltb add hr succr graph (bm_r b2)) as [[n' r]| | |] eqn:Er; try discriminate. cbn [bind].
  destruct (bm_intersection _ _ _ Rev _ _) as [b3| | |] eqn:E3; try discriminate. cbn [bind]. apply intersection_searches in E3 as (F3 & R3). cbn in F3, R3.
  apply pop_expand_root in Ef, Er. assert (Q : ms_root (bm_f b3) = ms_root (bm_f b) /\ ms_root (bm_r b3) = ms_root (bm_r b)) by (split; congruence).
  destruct (bm_finished _ _ _ b3) as [[|]| | |]; try discriminate; cbn [bind].
  - intros [= _ <-]. exact Q.
  - intros E. apply IH in E. destruct E, Q. split; congruence.
Qed.

Lemma tree_above (m : AStarMem_model.memory S A C) r a : tree m r -> live m a <> None -> r <= a.
Proof. intros T H. destruct (live m a) as [o|] eqn:E; [|congruence]. exact (desc_le ltb add zero m r T r a (root_desc m r T a o E)). Qed.

Lemma call_fresh q x (b b1 : bmem) : bgood b -> bm_call eqs ltb add zero dflt graph q b = Ok (x, b1) ->
  (forall a, live (ms_mem (bm_f b)) a <> None -> live (ms_mem (bm_f b1)) a = None) /\ (forall a, live (ms_mem (bm_r b)) a <> None -> live (ms_mem (bm_r b1)) a = None).
Proof.
  intros G E. assert (G1 : bgood b1).
  { pose proof (bcall_sim q b _ _ G eq_refl eq_refl) as K. rewrite E in K. destruct (bi_call _ _ _ _ _ _ _ _) as [[y p]| | |]; cbn in K; try contradiction.
    destruct K as (_ & _ & Fi). exact (bfinished_good _ _ _ Fi). }
  unfold bm_call, bm_search in E. destruct (ms_init _ _ _ _ _ (bm_f b)) as [f| | |] eqn:Ef; try discriminate. destruct (ms_init _ _ _ _ _ (bm_r b)) as [r| | |] eqn:Er; try discriminate. cbn [bind] in E.
  destruct (bm_loop _ _ _ _ _ _ _ _ _ _ _) as [[found b2]| | |] eqn:El; try discriminate. cbn [bind] in E. destruct (bm_path b2) as [path| | |]; try discriminate. cbn [bind] in E.
  destruct (bm_cost add b2) as [cost| | |]; try discriminate. cbn [bind] in E. injection E as <- <-.
  apply loop_roots in El as (Rf & Rr). cbn in Rf, Rr.
  destruct G as (Gf & Gr), G1 as (Gf1 & Gr1). destruct (init_root _ _ _ Gf Ef) as (rf & E1 & H1), (init_root _ _ _ Gr Er) as (rr & E2 & H2).
  unfold good in Gf1, Gr1. rewrite Rf, E1 in Gf1. rewrite Rr, E2 in Gr1.
  split; intros a Ha.
  - specialize (H1 a Ha). destruct (live (ms_mem (bm_f b2)) a) eqn:E; auto. assert (rf <= a) by (apply (tree_above _ _ _ Gf1); congruence). lia.
  - specialize (H2 a Ha). destruct (live (ms_mem (bm_r b2)) a) eqn:E; auto. assert (rr <= a) by (apply (tree_above _ _ _ Gr1); congruence). lia.
Qed.

Lemma brun_fresh (qs : list request) q q' pf pr xs b x b1 :
  bm_run eqs ltb add zero dflt graph (qs ++ [q]) (bm_new pf pr) = Ok (xs, b) -> bm_call eqs ltb add zero dflt graph q' b = Ok (x, b1) ->
  (forall s a, In (s, a) (ms_expl (bm_f b)) -> live (ms_mem (bm_f b)) a <> None /\ live (ms_mem (bm_f b1)) a = None) /\
  (forall s a, In (s, a) (ms_expl (bm_r b)) -> live (ms_mem (bm_r b)) a <> None /\ live (ms_mem (bm_r b1)) a = None).
Proof.
  intros E E1. destruct (brun_pointers _ _ _ _ _ _ E) as ((_ & _ & Hf & _) & (_ & _ & Hr & _) & _). destruct (call_fresh q' x b b1 (brun_good _ _ _ _ _ E) E1) as (Ff & Fr).
  split; intros s a I.
  - destruct (Hf s a I) as (o & Eo & _). assert (live (ms_mem (bm_f b)) a <> None) by congruence. auto.
  - destruct (Hr s a I) as (o & Eo & _). assert (live (ms_mem (bm_r b)) a <> None) by congruence. auto.
Qed.
End Both.
