(** The error of searches on doubles in simpler terms, and for the grid search with measured distances. *)
From Coq Require Import Reals ZArith Lra Lia.
From Flocq Require Import Core BinarySingleNaN.
From Verif Require Import Base Frontier_model Frontier_spec AStar_model AStar_spec AStar_proofs AStar_opt_proofs AStarSimple_proofs Rounded_spec RoundedSearch_proofs
  Grid_model Grid_spec Grid_proofs AStarN2_model AStarN2_spec AStarN2_proofs CostFloat_model CostFloat_spec CostFloat_proofs CostFloatSearch_proofs.
Local Open Scope R_scope.

Lemma pow_bound x n : 0 <= x -> INR n * x <= 1 -> (1 + x) ^ n <= 1 + INR n * x + (INR n * x) * (INR n * x).
Proof.
  intros Hx. induction n as [|n IH]; intros Hn; [cbn; lra|]. rewrite S_INR in *. cbn [pow].
  assert (0 <= INR n) by apply pos_INR. assert (Hn' : INR n * x <= 1) by nra. specialize (IH Hn').
  set (a := INR n) in *. eapply Rle_trans; [apply Rmult_le_compat_l; [lra|exact IH]|].
  assert (a * x * (a * x) * x <= x * x * a) by (assert (0 <= a * x) by nra; assert (a * x * (a * x) <= a * x) by nra; nra).
  nra.
Qed.

(** A search with relative errors: the exact costs of the path found and of any other path. *)
Lemma pow_mono_base a b n : 0 <= a <= b -> a ^ n <= b ^ n.
Proof. intros H. now apply pow_incr. Qed.

Lemma pow_small a n m : 0 <= a <= 1 -> (n <= m)%nat -> a ^ m <= a ^ n.
Proof.
  intros Ha H. replace m with (n + (m - n))%nat by lia. rewrite pow_add.
  assert (0 <= a ^ n) by (apply pow_le; lra). assert (a ^ (m - n) <= 1 ^ (m - n)) by (apply pow_incr; lra). rewrite pow1 in H1. nra.
Qed.

Lemma ratio_bound u g w N n n' c c' : 0 <= u < 1 -> 1 <= g -> g <= w * (1 - u) -> (n <= N)%nat -> (n' <= N)%nat -> 0 <= c -> 0 <= c' ->
  (1 - u) ^ n * c <= g ^ n' * c' -> c <= w ^ N * c'.
Proof.
  intros Hu Hg Hgw Hn Hn' Hc Hc' H.
  assert (A1 : (1 - u) ^ N <= (1 - u) ^ n) by (apply pow_small; auto; lra).
  assert (A2 : g ^ n' <= g ^ N) by (apply Rle_pow; auto).
  assert (A3 : g ^ N <= (w * (1 - u)) ^ N) by (apply pow_incr; lra). rewrite Rpow_mult_distr in A3.
  assert (P : 0 < (1 - u) ^ N) by (apply pow_lt; lra).
  apply (Rmult_le_reg_l ((1 - u) ^ N)); auto.
  assert ((1 - u) ^ N * c <= (1 - u) ^ n * c) by (apply Rmult_le_compat_r; auto).
  assert (g ^ n' * c' <= w ^ N * (1 - u) ^ N * c') by (apply Rmult_le_compat_r; auto; lra). lra.
Qed.

Lemma growth_small u : 0 <= u <= / 10 -> 1 <= growth u 0 /\ growth u 0 <= (1 + 5 * u) * (1 - u).
Proof.
  intros Hu. destruct (growth_ge u 0) as [E L]; [lra|lra|]. split; [nra|].
  apply (Rmult_le_reg_r (1 - u)); [lra|]. rewrite <- E. nra.
Qed.

Lemma unit_small : 0 < d_unit <= / 10.
Proof. unfold d_unit. lra. Qed.

Lemma double_short {S A P} (eqs : S -> S -> bool) (dflt : A) h (succ : P -> S -> list (S * A * double) * P) issol nb init N :
  decides_eq eqs -> deterministic succ nb -> cost_inputs h succ init -> estimate succ d_value d_finite h 0 init ->
  (forall t, issol t = true -> d_value (h t) = 0) -> 5 * INR N * d_unit <= 1 ->
  forall fuel p n st, double_search eqs h succ issol fuel init p = Ok (Some n, st) ->
  exists l, is_path succ init l (n_state n) /\ get_path (Some n) = Ok (path_states init l) /\ get_actions dflt (Some n) = Ok (path_actions l) /\
  forall l' t, is_path succ init l' t -> issol t = true -> finite_steps d_finite l' -> 3 * exact_cost d_value l' <= d_max ->
  (length l <= N)%nat -> (length l' <= N)%nat ->
  finite_steps d_finite l /\ exact_cost d_value l <= (1 + 10 * INR N * d_unit) * exact_cost d_value l'.
Proof.
  intros He Hd Hin Hest Hz HN fuel p n st E. pose proof (decides_eq_equiv _ He) as Heqs.
  destruct (double_sound eqs dflt h succ issol init Hin _ _ _ _ Heqs E) as (l & Hl & Hs & H1 & H2 & H3). exists l. split; [exact Hl|split; [exact H1|split; [exact H2|]]].
  intros l' t Hl' Ht Hf Hb Ln Ln'. injection H3 as H3.
  assert (Pos : forall k s, is_path succ init k s -> 0 <= exact_cost d_value k).
  { assert (G : forall k s s', reachable succ init s -> is_path succ s k s' -> 0 <= exact_cost d_value k).
    { induction k as [|e k IH]; intros s s' Hs' Hk; cbn in *; [lra|]. destruct Hk as [He' Hk].
      pose proof (cost_pos _ (proj1 Hin _ _ _ _ Hs' He')). assert (0 <= exact_cost d_value k) by (eapply IH; [eapply reachable_step; eauto|eauto]).
      unfold d_value at 1. lra. }
    intros k s Hk. eapply G; eauto. apply reachable_refl. }
  pose proof (Pos l' t Hl') as P'. pose proof (Pos l _ Hl) as Pl. pose proof unit_small as U. pose proof (pos_INR N) as PN.
  destruct (growth_small d_unit) as [G1 G2]; [lra|].
  assert (W : (1 + 5 * d_unit) ^ N <= 1 + 10 * INR N * d_unit /\ (1 + 5 * d_unit) ^ N <= 3).
  { pose proof (pow_bound (5 * d_unit) N) as B. assert (INR N * (5 * d_unit) <= 1) by lra. specialize (B ltac:(lra) H).
    assert (0 <= INR N * (5 * d_unit)) by (apply Rmult_le_pos; lra). set (y := INR N * (5 * d_unit)) in *.
    assert (10 * INR N * d_unit = 2 * y) by (unfold y; ring). nra. }
  assert (O : growth d_unit 0 ^ length l' * (exact_cost d_value l' + d_value (h t)) <= d_max).
  { rewrite (Hz t Ht), Rplus_0_r. eapply Rle_trans; [|exact Hb]. apply Rmult_le_compat_r; auto.
    assert (growth d_unit 0 ^ length l' <= growth d_unit 0 ^ N) by (apply Rle_pow; auto).
    assert (growth d_unit 0 ^ N <= (1 + 5 * d_unit) ^ N) by (apply pow_incr; split; [lra|nra]). lra. }
  destruct (double_near eqs dflt h succ issol init Hin nb 0 fuel p n st He Hd ltac:(lra) Hest E l' t Hl' Ht Hf O) as [Fn Ln''].
  rewrite (Hz t Ht), (Hz _ Hs), !Rplus_0_r in Ln''. rewrite H3 in Fn, Ln''.
  destruct (double_exact h succ init Hin l _ Hl Fn) as (Fl & Lo & _). split; auto.
  assert (X : (1 - d_unit) ^ length l * exact_cost d_value l <= growth d_unit 0 ^ length l' * exact_cost d_value l') by lra.
  pose proof (ratio_bound d_unit (growth d_unit 0) (1 + 5 * d_unit) N _ _ _ _ ltac:(lra) G1 G2 Ln Ln' Pl P' X) as Y.
  eapply Rle_trans; [exact Y|]. apply Rmult_le_compat_r; auto. apply W.
Qed.

(** ** The grid search with measured distances *)
Section Grid.
  Variables (m n : Z) (occ : cell -> bool) (dist : cell -> cell -> R) (cost : cell -> cell -> double) (h : cell -> double) (delta : R) (init goal : cell).
  Hypothesis Hpos : forall p q, 0 <= dist p q.
  Hypothesis Hzero : forall p, dist p p = 0.
  Hypothesis Htri : forall p q r, dist p r <= dist p q + dist q r.
  Hypothesis Hdelta : 0 <= delta <= 4 * d_unit.
  Hypothesis Hinit : inside m n init.
  Hypothesis Hcost : forall p q, inside m n p -> grid_step m n occ p q -> measures delta (cost p q) (dist p q).
  Hypothesis Hh : forall p, inside m n p -> measures delta (h p) (dist p goal).
  Notation succ := (n2_succ m n cost occ).

  Lemma inside_reach s : reachable succ init s -> inside m n s.
  Proof. intros [l Hl]. eapply path_walk; eauto. Qed.

  Lemma grid_inputs : cost_inputs h succ init.
  Proof.
    split.
    - intros s a c t Hs Ht. apply inside_reach in Hs. apply trans_step in Ht as [Hg ->]; auto. now apply Hcost.
    - intros s Hs. apply inside_reach in Hs. destruct (Hh s Hs) as (H1 & H2 & _). auto.
  Qed.

  Lemma walk_dist l : forall p q, dist p q <= walk_cost dist p l + dist (last l p) q.
  Proof.
    induction l as [|c l IH]; intros p q; cbn [walk_cost last]; [lra|].
    pose proof (Htri p c q). destruct l as [|c' l]; [cbn; lra|]. specialize (IH c q).
    assert (E : last (c' :: l) c = last (c' :: l) p) by (clear; revert c'; induction l as [|d l IH]; intros c'; [reflexivity|apply IH]).
    rewrite E in IH. lra.
  Qed.

  Lemma steps_exact l : forall p q, inside m n p -> is_path succ p l q ->
    finite_steps d_finite l /\ (1 - delta) * walk_cost dist p (map step_state l) <= exact_cost d_value l <= (1 + delta) * walk_cost dist p (map step_state l) /\
    dist p goal <= walk_cost dist p (map step_state l) + dist q goal.
  Proof.
    induction l as [|e l IH]; intros p q Hp Hl; cbn [is_path map walk_cost exact_cost] in *.
    - subst. repeat split; try lra. constructor.
    - destruct Hl as [He Hl]. apply trans_step in He as [Hs Ec]; auto. assert (Hi : inside m n (step_state e)) by apply Hs.
      destruct (IH _ _ Hi Hl) as (F & [L U] & D). destruct (Hcost p _ Hp Hs) as (_ & Fc & [Lc Uc]). rewrite <- Ec in *.
      repeat split; try lra.
      + constructor; auto.
      + pose proof (Htri p (step_state e) goal). lra.
  Qed.

  Let eta := 2 * delta / (1 - delta).
  Lemma eta_eq : (1 + eta) * (1 - delta) = 1 + delta.
  Proof. unfold eta. pose proof unit_small. field. lra. Qed.
  Lemma eta_pos : 0 <= eta.
  Proof. pose proof eta_eq. pose proof unit_small. nra. Qed.

  Lemma grid_estimate : estimate succ d_value d_finite h eta init.
  Proof.
    intros s l t Hs Hl _. pose proof (inside_reach s Hs) as Hi. destruct (steps_exact l s t Hi Hl) as (_ & [L _] & D).
    assert (Ht : inside m n t) by (apply inside_reach; destruct Hs as [k Hk]; exists (k ++ l); apply is_path_app; eauto).
    destruct (Hh s Hi) as (_ & _ & [_ U]). destruct (Hh t Ht) as (_ & _ & [Lt _]). pose proof eta_eq as E. pose proof eta_pos as Ep.
    assert ((1 + delta) * dist s goal <= (1 + delta) * (walk_cost dist s (map step_state l) + dist t goal)) by (apply Rmult_le_compat_l; lra).
    rewrite <- E in H at 2. assert ((1 + eta) * ((1 - delta) * walk_cost dist s (map step_state l) + (1 - delta) * dist t goal) <= (1 + eta) * (exact_cost d_value l + d_value (h t))) by (apply Rmult_le_compat_l; lra).
    lra.
  Qed.

  Lemma grid_growth : 1 <= growth d_unit eta /\ growth d_unit eta <= (1 + 15 * d_unit) * (1 - d_unit).
  Proof.
    pose proof unit_small as U. destruct (growth_ge d_unit eta) as [E L]; [lra|apply eta_pos|]. pose proof eta_pos.
    split; [nra|]. apply (Rmult_le_reg_r (1 - d_unit)); [lra|]. rewrite <- E.
    assert (He : 1 + eta <= 1 + 9 * d_unit).
    { apply (Rmult_le_reg_r (1 - delta)); [lra|]. rewrite eta_eq. assert (d_unit <= / 100) by (unfold d_unit; lra). nra. }
    assert (d_unit <= / 1000) by (unfold d_unit; lra). 
    assert ((1 + d_unit) * (1 + d_unit) * (1 + eta) <= (1 + d_unit) * (1 + d_unit) * (1 + 9 * d_unit)) by (apply Rmult_le_compat_l; nra).
    assert ((1 + d_unit) * (1 + d_unit) * (1 + 9 * d_unit) <= (1 + 15 * d_unit) * (1 - d_unit) * (1 - d_unit)); [|lra].
    set (u := d_unit) in *. assert (0 <= u * u) by nra. assert (u * u <= / 1000 * u) by nra. assert (u * (u * u) <= / 1000 * (u * u)) by nra. nra.
  Qed.

  Lemma grid_near_short N fuel sol st : (Z.to_nat m * Z.to_nat n <= N)%nat -> 15 * INR N * d_unit <= 1 ->
    n2_search d_ltb d_add d_zero m n cost occ h init goal fuel = Ok (Some sol, st) ->
    exists l, get_path (Some sol) = Ok (init :: l) /\ walk m n occ init l goal /\
    forall l', walk m n occ init l' goal -> (length l' <= N)%nat -> 4 * walk_cost dist init l' <= d_max ->
      walk_cost dist init l <= (1 + 60 * INR N * d_unit) * walk_cost dist init l'.
  Proof.
    intros HmN HN E. change (double_search cell_eqb h succ (fun s => cell_eqb s goal) fuel init tt = Ok (Some sol, st)) in E.
    pose proof grid_inputs as Hin. pose proof (decides_eq_equiv _ cell_decides) as Heqs.
    destruct (double_sound cell_eqb tt h succ _ init Hin _ _ _ _ Heqs E) as (l & Hl & Hs & H1 & H2 & H3).
    apply cell_eqb_eq in Hs. exists (map step_state l). split; [exact H1|].
    split; [rewrite <- Hs; eapply path_walk; eauto|]. intros l' Hw Ln' Hb.
    injection H3 as H3. pose proof (walk_path m n cost occ l' init goal Hinit Hw) as Hl'. set (k := steps_of cost init l') in *.
    destruct (steps_exact k init goal Hinit Hl') as (Fk & [Lk Uk] & _).
    assert (Ek : map step_state k = l') by (unfold k; clear; revert init; induction l' as [|c l IH]; intros p; cbn; [auto|now rewrite IH]).
    assert (Nk : length k = length l') by (rewrite <- Ek, map_length; auto). rewrite Ek in *.
    pose proof unit_small as U. pose proof (pos_INR N) as PN. destruct grid_growth as [G1 G2].
    set (g := growth d_unit eta) in *.
    assert (Pw : forall p q, 0 <= walk_cost dist q p) by (induction p as [|c p IH]; intros q; cbn; [lra|]; pose proof (Hpos q c); pose proof (IH c); lra).
    assert (Nl : (length l <= N)%nat).
    { (* the path found visits no cell twice *)
      destruct (double_found cell_eqb h succ _ init Hin _ _ _ _ E) as (n0 & st0 & E0 & Hn).
      assert (Hfin : finitely_reachable (succ' succ) cell_eqb init (all_cells m n)).
      { intros t Ht. apply (n2_finite m n cost occ init Hinit). eapply reach_down; eauto. apply reachable_refl. }
      pose proof (search_path_short _ _ _ _ _ _ _ _ Heqs swo _ _ _ _ _ _ Hfin E0) as X. rewrite all_cells_length in X.
      destruct (node_path tt _ _ _ _ Hn) as (_ & _ & Ed & _). rewrite Ed in X.
      assert (L : length (trail sol) = Datatypes.S (n_depth sol)) by (clear; induction sol; cbn; auto).
      unfold get_path in H1. rewrite trail_path, app_nil_r in H1. injection H1 as H1.
      assert (length (rev (trail sol)) = length (path_states init l)) by now rewrite H1. rewrite rev_length in H. cbn in H. rewrite map_length in H. lia. }
    assert (HN' : INR N * (15 * d_unit) <= 1) by lra.
    assert (Wb : (1 + 15 * d_unit) ^ N <= 1 + 30 * INR N * d_unit /\ (1 + 15 * d_unit) ^ N <= 3).
    { pose proof (pow_bound (15 * d_unit) N ltac:(lra) HN') as B. assert (0 <= INR N * (15 * d_unit)) by (apply Rmult_le_pos; lra).
      set (y := INR N * (15 * d_unit)) in *. assert (30 * INR N * d_unit = 2 * y) by (unfold y; ring). nra. }
    assert (Ph : d_value (h goal) = 0).
    { assert (Hg : inside m n goal) by (rewrite <- Hs; apply inside_reach; now exists l). destruct (Hh goal Hg) as (Hc & _ & [Lh Uh]).
      rewrite Hzero in *. lra. }
    pose proof (Pw l' init) as P'. pose proof (Pw (map step_state l) init) as P.
    assert (Pk : 0 <= exact_cost d_value k).
    { eapply Rle_trans; [|exact Lk]. apply Rmult_le_pos; lra. }
    assert (O : g ^ length k * (exact_cost d_value k + d_value (h goal)) <= d_max).
    { rewrite Ph, Rplus_0_r. eapply Rle_trans; [|exact Hb].
      assert (g ^ length k <= g ^ N) by (apply Rle_pow; auto; lia).
      assert (g ^ N <= (1 + 15 * d_unit) ^ N) by (apply pow_incr; split; [lra|nra]).
      assert (0 <= g ^ length k) by (apply pow_le; lra).
      assert (exact_cost d_value k <= (1 + / 10) * walk_cost dist init l').
      { eapply Rle_trans; [exact Uk|]. apply Rmult_le_compat_r; auto. assert (d_unit <= / 100) by (unfold d_unit; lra). lra. }
      assert (g ^ length k * exact_cost d_value k <= 3 * ((1 + / 10) * walk_cost dist init l')) by (apply Rmult_le_compat; lra). lra. }
    assert (Gs : cell_eqb goal goal = true) by apply cell_eqb_refl.
    destruct (double_near cell_eqb tt h succ _ init Hin _ eta fuel tt sol st cell_decides (n2_deterministic m n cost occ) eta_pos grid_estimate E k goal Hl' Gs Fk O) as [Fn Ln].
    rewrite Hs in Ln. rewrite Ph, !Rplus_0_r in Ln. rewrite H3 in Fn, Ln.
    destruct (double_exact h succ init Hin l _ Hl Fn) as (Fl & Lo & _).
    destruct (steps_exact l init _ Hinit Hl) as (_ & [Ll Ul] & _).
    assert (Pl : 0 <= exact_cost d_value l). { eapply Rle_trans; [|exact Ll]. apply Rmult_le_pos; lra. }
    assert (X : (1 - d_unit) ^ length l * exact_cost d_value l <= g ^ length k * exact_cost d_value k) by (unfold g; lra).
    pose proof (ratio_bound d_unit g (1 + 15 * d_unit) N (length l) (length k) _ _ ltac:(lra) G1 G2 Nl ltac:(lia) Pl Pk X) as Y.
    set (w := walk_cost dist init l') in *. set (v := walk_cost dist init (map step_state l)) in *. set (W := (1 + 15 * d_unit) ^ N) in *.
    assert (Z1 : (1 - delta) * v <= W * ((1 + delta) * w)).
    { eapply Rle_trans; [exact Ll|]. eapply Rle_trans; [exact Y|]. apply Rmult_le_compat_l; [unfold W; apply pow_le; lra|exact Uk]. }
    destruct N as [|N'].
    - exfalso. destruct init as [i0 j0]. destruct Hinit. nia.
    - assert (P1 : 1 <= INR (Datatypes.S N')) by (rewrite S_INR; pose proof (pos_INR N'); lra). set (x := INR (Datatypes.S N') * d_unit) in *.
      assert (Hx : d_unit <= x) by (unfold x; nra). assert (Ex : 30 * INR (Datatypes.S N') * d_unit = 30 * x) by (unfold x; ring). rewrite Ex in Wb.
      replace (60 * INR (Datatypes.S N') * d_unit) with (60 * x) by (unfold x; ring).
      assert (x <= / 15) by (unfold x; lra).
      assert (D : (1 + delta) <= (1 - delta) * (1 + 9 * d_unit)) by (assert (d_unit <= / 100) by (unfold d_unit; lra); nra).
      assert (Z2 : v <= W * ((1 + 9 * d_unit) * w)).
      { apply (Rmult_le_reg_l (1 - delta)); [lra|]. eapply Rle_trans; [exact Z1|].
        replace ((1 - delta) * (W * ((1 + 9 * d_unit) * w))) with (W * (((1 - delta) * (1 + 9 * d_unit)) * w)) by ring.
        apply Rmult_le_compat_l; [unfold W; apply pow_le; lra|]. apply Rmult_le_compat_r; auto. }
      eapply Rle_trans; [exact Z2|]. rewrite <- Rmult_assoc. apply Rmult_le_compat_r; auto.
      assert (W * (1 + 9 * d_unit) <= (1 + 30 * x) * (1 + 9 * d_unit)) by (apply Rmult_le_compat_r; lra).
      nra.
  Qed.

  (** A walk without its loops is a walk and no longer than before. *)
  Lemma walk_split a : forall p q b r, walk m n occ p (a ++ q :: b) r -> walk m n occ q b r.
  Proof. induction a as [|c a IH]; intros p q b r H; cbn in H; [apply H|]. eapply IH. apply H. Qed.
  Lemma walk_pos l : forall p, 0 <= walk_cost dist p l.
  Proof. induction l as [|c l IH]; intros p; cbn; [lra|]. pose proof (Hpos p c). pose proof (IH c). lra. Qed.
  Lemma cost_split a : forall p q b, walk_cost dist q b <= walk_cost dist p (a ++ q :: b).
  Proof. induction a as [|c a IH]; intros p q b; cbn; [pose proof (Hpos p q); lra|]. pose proof (Hpos p c). pose proof (IH c q b). lra. Qed.
  Lemma cell_dec (p q : cell) : {p = q} + {p <> q}.
  Proof. decide equality; apply Z.eq_dec. Qed.

  Lemma loop_free l : forall p q, walk m n occ p l q -> exists l', walk m n occ p l' q /\ NoDup (p :: l') /\ walk_cost dist p l' <= walk_cost dist p l.
  Proof.
    induction l as [|c l IH]; intros p q H; cbn in H.
    - exists []. subst. repeat split; cbn; try lra. constructor; [easy|constructor].
    - destruct H as [Hs H]. destruct (IH _ _ H) as (l1 & H1 & H2 & H3).
      destruct (in_dec cell_dec p (c :: l1)) as [I|I].
      + apply in_split in I as (a & b & E). exists b. assert (W : walk m n occ p (c :: l1) q) by (split; auto).
        rewrite E in W, H2. apply walk_split in W. split; [exact W|]. split; [clear - H2; induction a; [exact H2|inversion H2; auto]|].
        pose proof (cost_split a p p b) as X. rewrite <- E in X. cbn in *. lra.
      + exists (c :: l1). split; [split; auto|]. split; [constructor; auto|]. cbn. lra.
  Qed.

  Lemma walk_inside l : forall p q, inside m n p -> walk m n occ p l q -> forall c, In c (p :: l) -> inside m n c.
  Proof.
    induction l as [|d l IH]; intros p q Hp Hw c Hc.
    - destruct Hc as [<-|[]]. exact Hp.
    - destruct Hc as [<-|Hc]; auto. cbn in Hw. destruct Hw as [Hs Hw]. apply (IH d q); auto. apply Hs.
  Qed.

  Lemma grid_near N fuel sol st : (Z.to_nat m * Z.to_nat n <= N)%nat -> 15 * INR N * d_unit <= 1 ->
    n2_search d_ltb d_add d_zero m n cost occ h init goal fuel = Ok (Some sol, st) ->
    exists l, get_path (Some sol) = Ok (init :: l) /\ walk m n occ init l goal /\
    forall l', walk m n occ init l' goal -> 4 * walk_cost dist init l' <= d_max ->
      walk_cost dist init l <= (1 + 60 * INR N * d_unit) * walk_cost dist init l'.
  Proof.
    intros HmN HN E. destruct (grid_near_short N fuel sol st HmN HN E) as (l & H1 & H2 & H3). exists l. split; [exact H1|]. split; [exact H2|].
    intros l' Hw Hb. destruct (loop_free l' init goal Hw) as (k & K1 & K2 & K3).
    assert (Lk : (length k <= N)%nat).
    { assert (X : (length (init :: k) <= length (all_cells m n))%nat).
      { apply NoDup_incl_length; auto. intros c Hc. apply (all_cells_In m n (fun _ _ => d_zero) occ). eapply walk_inside; eauto. }
      rewrite all_cells_length in X. cbn in X. lia. }
    eapply Rle_trans; [apply (H3 k K1 Lk); lra|]. apply Rmult_le_compat_l; auto.
    pose proof unit_small. pose proof (pos_INR N). assert (0 <= 60 * INR N * d_unit) by (apply Rmult_le_pos; lra). lra.
  Qed.
End Grid.

Lemma consistent_estimate {S A P} h (succ : P -> S -> list (S * A * double) * P) init : d_consistent h succ init -> estimate succ d_value d_finite h 0 init.
Proof.
  intros Hc s l. revert s. induction l as [|e l IH]; intros s t Hs Hl Hf; cbn [is_path exact_cost] in *.
  - subst. lra.
  - destruct Hl as [He Hl]. inversion Hf as [|? ? Fe Fl]; subst. pose proof (Hc _ _ _ _ Hs He Fe).
    assert (reachable succ init (step_state e)) by (eapply reachable_step; eauto). pose proof (IH _ _ H0 Hl Fl). lra.
Qed.

(** What is left of optimality with a consistent heuristic. *)
Lemma double_near_optimal {S A P} (eqs : S -> S -> bool) (dflt : A) h (succ : P -> S -> list (S * A * double) * P) issol nb init N :
  decides_eq eqs -> deterministic succ nb -> cost_inputs h succ init -> d_consistent h succ init ->
  (forall t, issol t = true -> d_value (h t) = 0) -> 5 * INR N * d_unit <= 1 ->
  forall fuel p n st, double_search eqs h succ issol fuel init p = Ok (Some n, st) ->
  exists l, is_path succ init l (n_state n) /\ get_path (Some n) = Ok (path_states init l) /\ get_actions dflt (Some n) = Ok (path_actions l) /\
  forall l' t, is_path succ init l' t -> issol t = true -> finite_steps d_finite l' -> 3 * exact_cost d_value l' <= d_max ->
  (length l <= N)%nat -> (length l' <= N)%nat ->
  finite_steps d_finite l /\ exact_cost d_value l <= (1 + 10 * INR N * d_unit) * exact_cost d_value l'.
Proof. intros He Hd Hin Hc. apply (double_short eqs dflt h succ issol nb); auto. now apply consistent_estimate. Qed.
