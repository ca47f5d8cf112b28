(** Graph search with costs whose addition is rounded: the cost found is within a factor of the cheapest one. *)
From Coq Require Import Reals Lra.
From Verif Require Import Base Frontier_model Frontier_spec Frontier_proofs AStar_model AStar_spec AStar_proofs AStar_opt_proofs Rounded_spec.
From Coq Require Import ZifyBool ZifyNat.
Local Open Scope R_scope.

Lemma growth_ge u eta : 0 <= u < 1 -> 0 <= eta -> (1 + u) * (1 + u) * (1 + eta) = growth u eta * (1 - u) /\ (1 + u) * (1 + u) * (1 + eta) <= growth u eta.
Proof.
  intros Hu He. unfold growth.
  assert (E : (1 + u) * (1 + u) * (1 + eta) / (1 - u) * (1 - u) = (1 + u) * (1 + u) * (1 + eta)) by (field; lra).
  split; [lra|]. set (k := (1 + u) * (1 + u) * (1 + eta) / (1 - u)) in *.
  assert (0 <= (1 + u) * (1 + u) * (1 + eta)) by (apply Rmult_le_pos; [apply Rmult_le_pos; lra|lra]).
  assert (0 <= k) by (apply Rmult_le_pos; [auto|left; apply Rinv_0_lt_compat; lra]). nra.
Qed.

Lemma leave_arith g hm hz ht c e1 e2 k eta : 0 <= hm -> 0 <= hz -> 0 <= ht -> 0 <= c -> 0 <= e1 -> 0 <= e2 -> 1 <= k -> 0 <= eta ->
  g + hm <= k * (e1 + hm) -> hm <= (1 + eta) * (c + e2 + ht) -> hz <= (1 + eta) * (e2 + ht) ->
  g + c + hz <= k * ((1 + eta) * (e1 + c + e2 + ht)).
Proof.
  intros Hhm Hhz Hht Hc He1 He2 Hk Heta Hg Hm Hz.
  assert (X : g + c + hz <= k * (e1 + Rmax hm (c + hz))).
  { unfold Rmax. destruct (Rle_dec hm (c + hz)); nra. }
  eapply Rle_trans; [exact X|]. apply Rmult_le_compat_l; [lra|].
  unfold Rmax. destruct (Rle_dec hm (c + hz)); nra.
Qed.

Section Near.
  Context {S A C P : Type}.
  Context (eqs : S -> S -> bool) (ltb : C -> C -> bool) (add : C -> C -> C) (zero : C) (val : C -> R) (fin : C -> Prop) (u big eta : R).
  Context (h : S -> C) (succ : P -> S -> list (S * A * C) * P) (issol : S -> bool) (nb : S -> list (S * A * C)).
  Context (Heq : decides_eq eqs) (Hr : rounded ltb add zero val fin u big) (Hdet : deterministic succ nb) (Heta : 0 <= eta).
  Context (init : S) (Hfin : forall s, reachable succ init s -> fin (h s)).
  Context (Hest : estimate succ val fin h eta init).
  Let Hcost : cost_laws ltb add := r_laws _ _ _ _ _ _ _ Hr.
  Let Heqs : equivalence S eqs := decides_eq_equiv eqs Heq.
  Let Hlt : strict_weak_order C ltb := cost_laws_swo ltb add Hcost.
  Let guard (_ _ : S) : bool := true.

  Notation node := (node S A C).
  Notation n_g := (@AStar_model.n_g S A C zero).
  Notation n_f := (@AStar_model.n_f S A C zero).
  Notation neq := (@n_eq S A C eqs).
  Notation finv := (finv (@n_cmp S A C ltb zero) neq).
  Notation upd := (upd eqs ltb add zero h guard true).
  Notation upds := (upds eqs ltb add zero h guard true).
  Notation le := (leb ltb).
  Notation child_of := (child_of add zero h).
  Notation exact := (exact_cost val).
  Notation all_fin := (finite_steps fin).
  Notation k := (growth u eta).
  Notation total_ok := (@AStar_opt_proofs.total_ok S A C add zero h).

  Lemma u_range : 0 <= u < 1. Proof. apply (r_unit _ _ _ _ _ _ _ Hr). Qed.
  Lemma k_bounds : 1 + eta <= k /\ 1 <= k.
  Proof. destruct (growth_ge u eta u_range Heta) as [_ H]. pose proof u_range. assert (1 + eta <= (1 + u) * (1 + u) * (1 + eta)) by nra. lra. Qed.
  Lemma k_pow n : 1 <= k ^ n.
  Proof. apply pow_R1_Rle. apply k_bounds. Qed.
  Lemma k_pow_le n m : (n <= m)%nat -> k ^ n <= k ^ m.
  Proof. intros H. apply Rle_pow; auto. apply k_bounds. Qed.

  Lemma exact_app l1 l2 : exact (l1 ++ l2) = exact l1 + @exact_cost S A C val l2.
  Proof. induction l1 as [|e l1 IH]; cbn; [lra|]. rewrite IH. lra. Qed.
  Lemma exact_pos l : all_fin l -> 0 <= @exact_cost S A C val l.
  Proof. induction 1 as [|e l He Hl IH]; cbn; [lra|]. pose proof (r_pos _ _ _ _ _ _ _ Hr _ He). lra. Qed.

  Lemma h_pos s : reachable succ init s -> 0 <= val (h s).
  Proof. intros H. apply (r_pos _ _ _ _ _ _ _ Hr), Hfin, H. Qed.

  Definition better (l l' : list node) : Prop :=
    forall y, In y l -> exists y', In y' l' /\ n_state y' = n_state y /\ le (n_f y') (n_f y).

  Lemma ler a : le a a. Proof. apply (le_refl ltb add Hcost). Qed.
  Lemma let_ a b c : le a b -> le b c -> le a c. Proof. apply (le_trans ltb add Hcost). Qed.

  Lemma better_refl l : better l l.
  Proof. intros y Hy. exists y. auto using ler. Qed.
  Lemma better_trans l1 l2 l3 : better l1 l2 -> better l2 l3 -> better l1 l3.
  Proof.
    intros H1 H2 y Hy. destruct (H1 y Hy) as (y1 & Hy1 & Hs1 & Hg1). destruct (H2 y1 Hy1) as (y2 & Hy2 & Hs2 & Hg2).
    exists y2. repeat split; auto; [congruence|]. eapply let_; eauto.
  Qed.

  Definition offer (n : node) (t : S * A * C) : C := add (add (n_g n) (snd t)) (h (fst (fst t))).
  Lemma child_f n t : n_f (child_of n t) = offer n t.
  Proof. destruct t as [[s a] c]. reflexivity. Qed.

  Lemma upd_better_l n e t l l' : upd n e t l l' -> better l l'.
  Proof.
    intros Hu y Hy. destruct Hu as [? ? Hm|? ? ? ? Hm|? ? Hm|fn ? Hin He ? Hbt Hun Hm].
    - exists y. rewrite Hm. auto using ler.
    - exists y. rewrite Hm. auto using ler.
    - exists y. rewrite Hm. auto using ler.
    - destruct (neq (child_of n t) y) eqn:E.
      + assert (n_state (child_of n t) = n_state y) by now apply Heq.
        exists (child_of n t). split; [apply Hm; auto|]. split; auto.
        rewrite (Hun y) by auto. now apply (lt_le ltb add Hcost).
      + exists y. rewrite Hm. auto using ler.
  Qed.

  Lemma upd_cov n e t l l' : upd n e t l l' -> covers e (fst (fst t)) \/
    exists y, In y l' /\ n_state y = fst (fst t) /\ le (n_f y) (offer n t).
  Proof.
    intros Hu. assert (Hst := child_state add zero h n t). assert (Hg := child_f n t).
    destruct Hu as [? Hc Hm|fn Hin He Hno Hm|? ? Hm|fn ? Hin He ? Hbt Hun Hm].
    - left. apply e_contains_iff in Hc as (m & Hm1 & Hm2). exists m. split; auto.
      rewrite <- Hst. now apply Heq.
    - right. exists fn. split; [now apply Hm|].
      assert (Hs : n_state (child_of n t) = n_state fn) by now apply Heq.
      split; [congruence|]. rewrite <- Hg. destruct (Hno eq_refl) as [Hc|Hc]; [discriminate|exact Hc].
    - right. exists (child_of n t). split; [apply Hm; auto|]. split; auto. rewrite Hg. apply ler.
    - right. exists (child_of n t). split; [apply Hm; auto|]. split; auto. rewrite Hg. apply ler.
  Qed.

  Lemma upds_near n e ts l l' : upds n e ts l l' -> better l l' /\
    forall t, In t ts -> covers e (fst (fst t)) \/ exists y, In y l' /\ n_state y = fst (fst t) /\ le (n_f y) (offer n t).
  Proof.
    induction 1 as [l|t ts l l1 l2 Hu Hus (Himp & Hcov)].
    - split; [apply better_refl|easy].
    - split; [eapply better_trans; [eapply upd_better_l; eauto|exact Himp]|].
      intros t' [<-|Ht']; auto. destruct (upd_cov _ _ _ _ _ Hu) as [Hc|(y & Hy & Hs & Hg)]; auto.
      right. destruct (Himp y Hy) as (y' & Hy' & Hs' & Hg'). exists y'. repeat split; auto; [congruence|]. eapply let_; eauto.
  Qed.

  Lemma upds_total n e ts l l' : upds n e ts l l' -> Forall total_ok l -> Forall total_ok l'.
  Proof. induction 1 as [l|t ts l l1 l2 Hu Hus IH]; intros H; auto. apply IH. eapply upd_total; eauto. Qed.

  (** How good a closed node is. *)
  Definition near_node (m : node) : Prop := forall p, is_path succ init p (n_state m) -> all_fin p ->
    k ^ length p * (exact p + val (h (n_state m))) <= big ->
    fin (n_g m) /\ val (n_g m) + val (h (n_state m)) <= k ^ length p * (exact p + val (h (n_state m))).

  Record closed_near (e l : list node) : Prop := {
    q_root : covers e init;
    q_next : forall m t, In m e -> In t (nb (n_state m)) ->
      covers e (fst (fst t)) \/ exists y, In y l /\ n_state y = fst (fst t) /\ le (n_f y) (offer m t);
    q_opt : forall m, In m e -> near_node m;
    q_total : Forall total_ok l
  }.

  Lemma leaves_near e l : closed_near e l -> forall p2 p1 m t,
    In m e -> is_path succ init p1 (n_state m) -> is_path succ (n_state m) p2 t -> all_fin (p1 ++ p2) ->
    k ^ length (p1 ++ p2) * (exact (p1 ++ p2) + val (h t)) <= big ->
    (forall m', In m' e -> n_state m' <> t) ->
    exists z, In z l /\ fin (n_f z) /\ val (n_f z) <= (1 - u) * (k ^ length (p1 ++ p2) * (exact (p1 ++ p2) + val (h t))).
  Proof.
    intros K. induction p2 as [|ed p2 IH]; intros p1 m t Hm H1 H2 Hall Hbig Ht; cbn [is_path] in H2.
    - exfalso. eapply Ht; eauto.
    - destruct H2 as [Htr H2]. pose proof (trans_det succ nb Hdet _ _ _ _ Htr) as Hin.
      assert (H1' : is_path succ init (p1 ++ [ed]) (step_state ed)).
      { apply is_path_app. exists (n_state m). cbn. auto. }
      assert (Happ : p1 ++ ed :: p2 = (p1 ++ [ed]) ++ p2) by now rewrite <- app_assoc.
      destruct (q_next _ _ K m _ Hm Hin) as [(m' & Hm' & Hs')|(z & Hz & Hzs & Hzf)]; cbn [fst snd] in *.
      + rewrite Happ in *. rewrite <- Hs' in H2, H1'. apply (IH (p1 ++ [ed]) m'); auto.
      + assert (Rm : reachable succ init (n_state m)) by now exists p1.
        assert (Rz : reachable succ init (step_state ed)) by now exists (p1 ++ [ed]).
        assert (Rt : reachable succ init t) by (exists ((p1 ++ [ed]) ++ p2); apply is_path_app; eauto).
        pose proof Hall as Hall'. apply Forall_app in Hall' as [F1 F2]. inversion F2 as [|? ? Fe Fp2]; subst.
        pose proof (h_pos _ Rm) as Pm. pose proof (h_pos _ Rz) as Pz. pose proof (h_pos _ Rt) as Pt.
        pose proof (r_pos _ _ _ _ _ _ _ Hr _ Fe) as Pc. pose proof (exact_pos _ F1) as P1. pose proof (exact_pos _ Fp2) as P2.
        assert (Em : val (h (n_state m)) <= (1 + eta) * (val (step_cost ed) + exact p2 + val (h t))).
        { apply (Hest (n_state m) (ed :: p2) t); auto. cbn. auto. }
        assert (Ez : val (h (step_state ed)) <= (1 + eta) * (exact p2 + val (h t))) by (apply (Hest (step_state ed) p2 t); auto).
        rewrite exact_app in *. cbn [exact_cost] in *.
        set (B := exact p1 + (val (step_cost ed) + exact p2) + val (h t)) in *.
        assert (PB : 0 <= B) by (unfold B; lra).
        rewrite app_length in *. cbn [length] in *. set (d := length p1) in *.
        assert (Hpow : k ^ d * ((1 + u) * (1 + u) * (1 + eta)) <= (1 - u) * k ^ (d + Datatypes.S (length p2))).
        { destruct (growth_ge u eta u_range Heta) as [E _]. rewrite E.
          assert (k ^ (d + 1) <= k ^ (d + Datatypes.S (length p2))) by (apply k_pow_le; lia). rewrite pow_add, pow_1 in H.
          pose proof u_range. nra. }
        pose proof u_range as Hu.
        assert (Hu2 : 1 <= (1 + u) * (1 + u)) by nra.
        assert (Hbig2 : k ^ d * ((1 + u) * (1 + u) * (1 + eta)) * B <= (1 - u) * (k ^ (d + Datatypes.S (length p2)) * B)).
        { rewrite <- (Rmult_assoc (1 - u)). apply Rmult_le_compat_r; auto. }
        assert (Hpos : 0 <= k ^ (d + Datatypes.S (length p2)) * B).
        { apply Rmult_le_pos; auto. pose proof (k_pow (d + Datatypes.S (length p2))). lra. }
        assert (Hbig3 : (1 - u) * (k ^ (d + Datatypes.S (length p2)) * B) <= big) by nra.
        pose proof (k_pow d) as Kd.
        set (X := k ^ d * ((1 + eta) * B)).
        assert (PX : 0 <= X) by (unfold X; apply Rmult_le_pos; [lra|apply Rmult_le_pos; lra]).
        assert (EX : k ^ d * ((1 + u) * (1 + u) * (1 + eta)) * B = (1 + u) * (1 + u) * X) by (unfold X; ring).
        rewrite EX in Hbig2.
        assert (Hg : fin (n_g m) /\ val (n_g m) + val (h (n_state m)) <= k ^ d * (exact p1 + val (h (n_state m)))).
        { apply (q_opt _ _ K m Hm p1); auto. fold d.
          assert (exact p1 + val (h (n_state m)) <= (1 + eta) * B) by (unfold B; nra).
          assert (k ^ d * (exact p1 + val (h (n_state m))) <= X) by (apply Rmult_le_compat_l; lra). nra. }
        destruct Hg as [Fg Hg].
        assert (Hs : val (n_g m) + val (step_cost ed) + val (h (step_state ed)) <= X).
        { unfold X, B. replace (exact p1 + (val (step_cost ed) + exact p2) + val (h t)) with (exact p1 + val (step_cost ed) + exact p2 + val (h t)) by ring.
          eapply (leave_arith _ (val (h (n_state m)))); eauto. }
        pose proof (r_pos _ _ _ _ _ _ _ Hr _ Fg) as Pg.
        assert (F1' : fin (add (n_g m) (step_cost ed))) by (apply (r_add _ _ _ _ _ _ _ Hr); auto; nra).
        pose proof (r_up _ _ _ _ _ _ _ Hr _ _ F1') as U1.
        assert (F2' : fin (add (add (n_g m) (step_cost ed)) (h (step_state ed)))) by (apply (r_add _ _ _ _ _ _ _ Hr); auto; nra).
        pose proof (r_up _ _ _ _ _ _ _ Hr _ _ F2') as U2.
        exists z. split; auto. unfold offer in Hzf. cbn [fst snd] in Hzf.
        destruct (r_le _ _ _ _ _ _ _ Hr _ _ Hzf F2') as [Fz Lz]. split; auto.
        eapply Rle_trans; [exact Lz|]. eapply Rle_trans; [exact U2|]. nra.
  Qed.

  (** A node popped from the frontier is close to the cheapest way to every state not yet closed. *)
  Lemma pop_near e l n p t : closed_near e l -> In n l ->
    (forall y, In y l -> le (n_f n) (n_f y)) -> (forall m, In m e -> n_state m <> t) ->
    is_path succ init p t -> all_fin p -> k ^ length p * (exact p + val (h t)) <= big ->
    fin (n_g n) /\ val (n_g n) + val (h (n_state n)) <= k ^ length p * (exact p + val (h t)).
  Proof.
    intros K Hn Hmin Hdis Hp Hall Hbig. destruct (q_root _ _ K) as (r & Hr0 & Hrs).
    destruct (leaves_near e l K p [] r t) as (z & Hz & Fz & Lz); auto.
    - cbn. auto.
    - now rewrite Hrs.
    - cbn [app] in Lz. pose proof (q_total _ _ K) as Htot. rewrite Forall_forall in Htot.
      destruct (r_le _ _ _ _ _ _ _ Hr _ _ (Hmin z Hz) Fz) as [Fn Ln]. rewrite (Htot n Hn) in Fn, Ln.
      destruct (r_fin _ _ _ _ _ _ _ Hr _ _ Fn) as [Fg Fh]. split; auto.
      pose proof (r_down _ _ _ _ _ _ _ Hr _ _ Fn) as D. pose proof u_range. nra.
  Qed.

  Lemma root_near p t : is_path succ init p t -> all_fin p ->
    val (h init) <= k ^ length p * (exact p + val (h t)).
  Proof.
    intros Hp Hall. pose proof (Hest init p t (reachable_refl succ init) Hp Hall) as E.
    assert (Ht : 0 <= val (h t)) by (apply h_pos; now exists p). pose proof (exact_pos _ Hall).
    destruct p as [|e p].
    - cbn in *. subst t. lra.
    - assert (k ^ 1 <= k ^ length (e :: p)) by (apply k_pow_le; cbn; lia). rewrite pow_1 in H0. pose proof (proj1 k_bounds). nra.
  Qed.

  Definition inv_near (st : search S A C P) : Prop :=
    inv_once eqs ltb add zero h succ init st /\
    ((st_expl st = [Root init] /\ vec (st_front st) = [Root init] /\ st_queried st = []) \/
     ((forall y, In y (vec (st_front st)) -> e_contains eqs y (st_expl st) = false) /\
      (forall m, In m (st_expl st) -> issol (n_state m) = false) /\
      closed_near (st_expl st) (vec (st_front st)))).

  Lemma root_node_near : near_node (Root init).
  Proof.
    intros p Hp Hall Hb. cbn [AStar_model.n_g n_state] in *. split; [apply (r_zero_fin _ _ _ _ _ _ _ Hr)|].
    rewrite (r_zero _ _ _ _ _ _ _ Hr), Rplus_0_l. now apply root_near.
  Qed.

  Lemma expand_near e0 e l0 l l' n :
    (forall m, In m e <-> m = n \/ In m e0) -> (covers e0 init \/ n_state n = init) ->
    (forall m t, In m e0 -> In t (nb (n_state m)) ->
      covers e0 (fst (fst t)) \/ exists y, In y l0 /\ n_state y = fst (fst t) /\ le (n_f y) (offer m t)) ->
    (forall m, In m e -> near_node m) ->
    (forall y, In y l0 <-> y = n \/ In y l) ->
    Forall total_ok l -> upds n e (nb (n_state n)) l l' -> closed_near e l'.
  Proof.
    intros He Hroot Hnext Hopt Hmem Htot Hu. destruct (upds_near _ _ _ _ _ Hu) as (Himp & Hcov).
    split; auto; [| |eapply upds_total; eauto].
    - destruct Hroot as [(y & Hy & Hys)|Hs].
      + exists y. split; auto. apply He. auto.
      + exists n. split; auto. apply He. auto.
    - intros m t Hm Ht. destruct (He m) as [He1 _]. destruct (He1 Hm) as [->|Hm0]; [auto|].
      destruct (Hnext m t Hm0 Ht) as [(y & Hy & Hys)|(y & Hy & Hys & Hyg)].
      + left. exists y. split; auto. apply He. auto.
      + apply Hmem in Hy as [->|Hy].
        * left. exists n. split; auto. apply He. auto.
        * right. destruct (Himp y Hy) as (y' & Hy' & Hs' & Hg'). exists y'. repeat split; auto; [congruence|]. eapply let_; eauto.
  Qed.

  Lemma contains_state (y : node) e : e_contains eqs y e = false -> forall m, In m e -> n_state m <> n_state y.
  Proof. apply (contains_false_state eqs Heq). Qed.

  Lemma inv_near_step st n fr fr' p :
      inv_near st -> finv fr -> In n (vec (st_front st)) ->
      (forall y, In y (vec (st_front st)) -> leb ltb (n_f n) (n_f y)) ->
      (forall y, In y (vec (st_front st)) <-> y = n \/ In y (vec fr)) ->
      (forall y, In y (vec fr) -> neq n y = false) ->
      issol (n_state n) = false ->
      finv fr' ->
      upds n (e_insert eqs n (st_expl st)) (fst (succ (st_prop st) (n_state n))) (vec fr) (vec fr') ->
      inv_near (Search fr' (e_insert eqs n (st_expl st)) p (n_state n :: st_queried st)).
  Proof.
    intros Hinv Hfr Hn Hmin Hmem Hne Hs Hfr' Hu.
    assert (Honce : inv_once eqs ltb add zero h succ init
              (Search fr' (e_insert eqs n (st_expl st)) p (n_state n :: st_queried st))).
    { eapply (inv_once_step eqs ltb add zero h succ issol guard true Heqs init eq_refl st n fr); eauto. apply Hinv. }
    split; [exact Honce|]. right. cbn [st_front st_expl]. rewrite Hdet in Hu.
    split; [destruct Honce as (_ & _ & [(Hq & _)|[_ Hd]]); [discriminate|exact Hd]|].
    destruct Hinv as [Ho Hph]. destruct Hph as [(He & Hv & _)|(Hdis & Hns & K)].
    - rewrite Hv in Hn. destruct Hn as [<-|[]].
      assert (Hins : e_insert eqs (Root init) (st_expl st) = [@Root S A C init]).
      { rewrite He. unfold e_insert, e_contains, n_eq. cbn. now rewrite (eqk_refl _ _ Heqs). }
      assert (Hno : forall y, ~ In y (vec fr)).
      { intros y Hy. assert (Hy' : In y (vec (st_front st))) by (apply Hmem; auto).
        rewrite Hv in Hy'. destruct Hy' as [<-|[]]. specialize (Hne _ Hy). unfold n_eq in Hne.
        now rewrite (eqk_refl _ _ Heqs) in Hne. }
      rewrite Hins in *. split; [intros m [<-|[]]; auto|].
      apply (expand_near [] [Root init] (vec (st_front st)) (vec fr) _ (Root init)); auto.
      + intros m. cbn. intuition.
      + easy.
      + intros m [<-|[]]. apply root_node_near.
      + apply Forall_forall. intros y Hy. destruct (Hno y Hy).
    - assert (Hins : e_insert eqs n (st_expl st) = n :: st_expl st).
      { unfold e_insert. now rewrite Hdis. }
      rewrite Hins in *. split; [intros m [<-|Hm]; auto|].
      apply (expand_near (st_expl st) (n :: st_expl st) (vec (st_front st)) (vec fr) _ n); auto.
      + intros m. cbn. intuition.
      + left. apply (q_root _ _ K).
      + apply (q_next _ _ K).
      + intros m [<-|Hm]; [|now apply (q_opt _ _ K m)]. intros q Hq Hall Hb.
        eapply (pop_near (st_expl st) (vec (st_front st))); eauto.
        apply contains_state. auto.
      + pose proof (q_total _ _ K) as Htot. rewrite Forall_forall in *. intros y Hy. apply Htot, Hmem. auto.
  Qed.

  Lemma inv_near_pop st n p t : inv_near st -> In n (vec (st_front st)) ->
    (forall y, In y (vec (st_front st)) -> le (n_f n) (n_f y)) -> issol t = true ->
    is_path succ init p t -> all_fin p -> k ^ length p * (exact p + val (h t)) <= big ->
    fin (n_g n) /\ val (n_g n) + val (h (n_state n)) <= k ^ length p * (exact p + val (h t)).
  Proof.
    intros [_ [(He & Hv & _)|(Hdis & Hns & K)]] Hn Hmin Ht Hp Hall Hb.
    - rewrite Hv in Hn. destruct Hn as [<-|[]]. cbn [AStar_model.n_g n_state]. split; [apply (r_zero_fin _ _ _ _ _ _ _ Hr)|].
      rewrite (r_zero _ _ _ _ _ _ _ Hr), Rplus_0_l. now apply root_near.
    - eapply pop_near; eauto. intros m Hm E. rewrite <- E, (Hns m Hm) in Ht. discriminate.
  Qed.

  Lemma search_near fuel p n st :
    search_path eqs ltb add zero h succ issol guard true fuel init p = Ok (Some n, st) ->
    forall l t, is_path succ init l t -> issol t = true -> all_fin l -> k ^ length l * (exact l + val (h t)) <= big ->
    fin (n_g n) /\ val (n_g n) + val (h (n_state n)) <= k ^ length l * (exact l + val (h t)).
  Proof.
    intros H l t Hl Ht Hall Hb. apply search_path_loop in H as (fr & Hf & Hv & H); auto.
    apply (loop_ind eqs ltb add zero h succ issol guard true Heqs Hlt inv_near) in H.
    - destruct H as (st0 & Hinv & Hn & Hs & Hmin & _). eapply inv_near_pop; eauto.
    - intros st0 Hst0. apply Hst0.
    - intros st0 n0 fr0 fr1 p0 ? ? ? ? ? ? ? ? ?. eapply (inv_near_step st0 n0 fr0); eauto.
    - split; [now apply inv_once_init|]. left. auto.
  Qed.

  (** The cost computed for a path is close to the exact sum. *)
  Lemma path_cost_exact (l : list (step S A C)) : forall g, fin (path_cost add g l) ->
    fin g /\ all_fin l /\ (1 - u) ^ length l * (val g + exact l) <= val (path_cost add g l) <= (1 + u) ^ length l * (val g + exact l).
  Proof.
    induction l as [|e l IH]; intros g Hg; cbn [path_cost fold_left exact_cost length pow] in *.
    - split; auto. split; [constructor|]. lra.
    - destruct (IH _ Hg) as (Fa & Fl & Lo & Up). destruct (r_fin _ _ _ _ _ _ _ Hr _ _ Fa) as [Fg Fe].
      split; auto. split; [constructor; auto|].
      pose proof (r_up _ _ _ _ _ _ _ Hr _ _ Fa) as U. pose proof (r_down _ _ _ _ _ _ _ Hr _ _ Fa) as D.
      pose proof (exact_pos _ Fl) as Pl. pose proof u_range as Hu.
      assert (0 <= (1 - u) ^ length l) by (apply pow_le; lra). assert (0 <= (1 + u) ^ length l) by (apply pow_le; lra).
      change (path_cost add (add g (step_cost e)) l) with (path_cost add (add g (step_cost e)) l) in *.
      unfold path_cost in *. cbn [fold_left] in *. split.
      + eapply Rle_trans; [|exact Lo]. rewrite Rmult_comm with (r1 := 1 - u), Rmult_assoc. apply Rmult_le_compat_l; auto. nra.
      + eapply Rle_trans; [exact Up|]. rewrite Rmult_comm with (r1 := 1 + u), Rmult_assoc. apply Rmult_le_compat_l; auto. nra.
  Qed.
End Near.
