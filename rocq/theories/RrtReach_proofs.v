From Coq Require Import ZArith Reals Lra.
From Verif Require Import Base RealBase Coords_model Straight_model Straight_spec Straight_proofs Rrt_model Rrt_spec.
From Verif Require Import Rrt_proofs RrtStar_proofs RrtReach_spec.

(** The loop, for any body that makes progress at the given iterations. *)
Section Loop.
Context {V I : Type}.
Variable body : Z -> tree V I -> res (tree V I * option nat).
Variables maxIteration maxNode : Z.
Variable good : tree V I -> Prop.
Variable k : nat.
Variable near : nat -> V -> Prop.
Variable hit : nat -> Z.
Hypothesis body_ok : forall c t, good t -> exists t' s, body c t = Ok (t', s) /\ good t' /\
  (length t' <= S (length t))%nat /\ incl (states t) (states t').
Hypothesis reach : forall j t t' s, (j < k)%nat -> good t -> (exists u, In u (states t) /\ near j u) ->
  body (hit (S j)) t = Ok (t', s) -> (exists u, In u (states t') /\ near (S j) u) /\ (S j = k -> s <> None).
Hypothesis k_pos : (1 <= k)%nat.
Hypothesis hit_pos : (0 <= hit 1)%Z.
Hypothesis hit_mono : forall j, (1 <= j < k)%nat -> (hit j < hit (S j))%Z.
Hypothesis budget : (hit k <= maxIteration < max_int)%Z.
Hypothesis nodes : (hit k + 1 <= maxNode)%Z.

Lemma hit_le : forall m j, (1 <= j)%nat -> (j + m <= k)%nat -> (hit j + Z.of_nat m <= hit (j + m)%nat)%Z.
Proof.
  induction m as [|m IH]; intros j H1 H2; [rewrite Nat.add_0_r; lia|].
  specialize (IH j H1 ltac:(lia)). specialize (hit_mono (j + m)%nat ltac:(lia)). rewrite <- plus_n_Sm. lia.
Qed.

Definition upto (count : Z) (t : tree V I) : Prop :=
  forall j, (j <= k)%nat -> (j = 0%nat \/ (hit j < count)%Z) -> exists u, In u (states t) /\ near j u.

Lemma reach_loop : forall fuel count t, good t -> upto count t ->
  (0 <= count <= hit k)%Z -> (Z.of_nat (length t) <= count + 1)%Z -> (Z.to_nat (maxIteration + 1 - count) < fuel)%nat ->
  exists t' s n, search_loop maxIteration maxNode body fuel count t = Ok (true, t', s, n) /\ (n <= hit k + 1)%Z.
Proof.
  induction fuel as [|f IH]; intros count t G U Hc Lt Lf; [lia|]. rewrite search_loop_S.
  destruct (Z.ltb_spec max_int count) as [L|L]; [lia|].
  destruct (Z.ltb_spec maxIteration count) as [L1|L1]; [lia|].
  destruct (Z.ltb_spec maxNode (Z.of_nat (length t))) as [L2|L2]; [lia|].
  destruct (body_ok count t G) as (t1 & s & E & G1 & Ll & Inc). rewrite E. cbn [bind].
  destruct s as [n|]; [exists t1, (Some n), (count + 1)%Z; split; [reflexivity|lia]|].
  assert (Old : forall j, (j < k)%nat -> hit (S j) = count -> exists u, In u (states t) /\ near j u).
  { intros j Hj Ej. apply U; [lia|]. destruct j as [|j]; [left; reflexivity|right].
    specialize (hit_mono (S j) ltac:(lia)). lia. }
  assert (Nk : count <> hit k).
  { intros ->. destruct k as [|k'] eqn:Ek; [lia|].
    destruct (reach k' t t1 None ltac:(lia) G (Old k' ltac:(lia) eq_refl) E) as (_ & X). exact (X eq_refl eq_refl). }
  apply IH; [exact G1| |lia|lia|lia].
  intros j Hj Hh. destruct j as [|j].
  - destruct (U 0%nat ltac:(lia) (or_introl eq_refl)) as (u & Hu & Nu). exists u. split; [apply Inc, Hu|exact Nu].
  - destruct Hh as [Hh|Hh]; [discriminate|]. destruct (Z.eq_dec (hit (S j)) count) as [Ej|Nj].
    + rewrite <- Ej in E. exact (proj1 (reach j t t1 None ltac:(lia) G (Old j ltac:(lia) Ej) E)).
    + assert (Lj : (hit (S j) < count)%Z) by lia. destruct (U (S j) ltac:(lia) (or_intror Lj)) as (u & Hu & Nu). exists u. split; [apply Inc, Hu|exact Nu].
Qed.

Lemma reach_search info0 init : good (create_root info0 init) -> near 0 init ->
  exists t s n, search_loop maxIteration maxNode body (S (S (Z.to_nat maxIteration))) 0 (create_root info0 init) =
    Ok (true, t, s, n) /\ (n <= hit k + 1)%Z.
Proof.
  intros G N0. assert (P : (0 <= hit k)%Z).
  { destruct (Nat.eq_dec k 1) as [->|Nk]; [exact hit_pos|].
    assert (X := hit_le (k - 1) 1 ltac:(lia) ltac:(lia)). replace (1 + (k - 1))%nat with k in X by lia. lia. }
  apply reach_loop; [exact G| |lia|cbn; lia|lia].
  intros j Hj [->|Hh]; [exists init; split; [left; reflexivity|exact N0]|].
  destruct j as [|j]; [exists init; split; [left; reflexivity|exact N0]|].
  assert (X := hit_le j 1 ltac:(lia) ltac:(lia)). cbn [Nat.add] in X. lia.
Qed.
End Loop.

Lemma extend_states {V I} eqv (info0 : I) nearest it (t t' : tree V I) v o k : decides eqv ->
  extend eqv info0 nearest it t v o = Ok (t', Some k) -> incl (states t) (states t') /\ In v (states t').
Proof.
  intros D. unfold extend. destruct (find_state eqv t v) as [j|] eqn:Ef.
  - intros H. assert (t' = t) by congruence. subst t'. split; [intros u Hu; exact Hu|].
    destruct (find_some eqv D info0 _ _ _ Ef) as (m & Hm & <-). exact (nth_error_In _ _ (states_nth eqv D info0 _ _ _ Hm)).
  - match goal with |- bind ?x _ = _ -> _ => destruct x as [[s|]| | |] end; cbn [bind]; try discriminate.
    intros H. assert (t' = t ++ [TNode v (Some s) info0]) by congruence. subst t'. unfold states. rewrite map_app.
    split; [intros u Hu; apply in_or_app; left; exact Hu|apply in_or_app; right; left; reflexivity].
Qed.

(** What an iteration of RRT adds. *)
Lemma rrt_body_adds {V P} eqv final steer valid issol sample nearest (E : V -> V -> Prop) init it
  (t : tree V (option P)) t' s : decides eqv -> twf E init t ->
  rrt_body eqv final steer valid issol sample nearest it t = Ok (t', s) ->
  incl (states t) (states t') /\
  exists a, nth_error (states t) (nearest it (states t) (sample it)) = Some a /\
    (valid (steer a (sample it)) = true ->
     In (final (steer a (sample it))) (states t') /\ (issol (final (steer a (sample it))) = true -> s <> None)).
Proof.
  intros D W. unfold rrt_body.
  destruct (get_nearest_node eqv nearest it t (sample it)) as [o| | |] eqn:En; cbn [bind]; try discriminate.
  destruct (get_nearest_spec eqv D None nearest it t _ _ (twf_once _ _ _ W) En) as (n & Hn & ->).
  assert (Hs := states_nth eqv D None _ _ _ Hn).
  unfold vget at 1. rewrite Hn. cbn [bind]. set (p := steer (tn_state n) (sample it)).
  destruct (valid p) eqn:Ev; cbn [negb].
  2: { intros H. assert (t' = t) by congruence. subst t'. split; [intros u Hu; exact Hu|].
       exists (tn_state n). split; [exact Hs|]. fold p. congruence. }
  destruct (extend _ _ _ _ _ _ _) as [[t1 [k|]]| | |] eqn:Ee; cbn [bind]; try discriminate.
  destruct (extend_states _ _ _ _ _ _ _ _ _ D Ee) as (Inc & Hin).
  destruct (set_info t1 k (Some p)) as [t2| | |] eqn:Es; cbn [bind]; try discriminate.
  intros H. assert (t' = t2 /\ s = if issol (final p) then Some k else None) as (-> & ->) by (split; congruence).
  rewrite (set_info_states _ _ _ _ Es). split; [exact Inc|]. exists (tn_state n). split; [exact Hs|]. fold p.
  intros _. split; [exact Hin|]. intros ->. discriminate.
Qed.

(** The same for RRT*. *)
Lemma star_body_adds {V P} eqv final steer valid issol sample nearest connect plength log knn (E : V -> V -> Prop) init it
  (t : tree V (@sinfo P R)) t' s : decides eqv -> twf E init t ->
  star_body eqv final steer valid issol sample nearest connect plength 0%R Rplus Rltb log knn it t = Ok (t', s) ->
  incl (states t) (states t') /\
  exists a, nth_error (states t) (nearest it (states t) (sample it)) = Some a /\
    (valid (steer a (sample it)) = true ->
     In (final (steer a (sample it))) (states t') /\ (issol (final (steer a (sample it))) = true -> s <> None)).
Proof.
  intros D W. unfold star_body.
  destruct (get_nearest_node eqv nearest it t (sample it)) as [o| | |] eqn:En; cbn [bind]; try discriminate.
  destruct (get_nearest_spec eqv D i0 nearest it t _ _ (twf_once _ _ _ W) En) as (n & Hn & ->).
  assert (Hs := states_nth eqv D i0 _ _ _ Hn).
  unfold vget at 1. rewrite Hn. cbn [bind]. set (p := steer (tn_state n) (sample it)).
  destruct (valid p) eqn:Ev; cbn [negb].
  2: { intros H. assert (t' = t) by congruence. subst t'. split; [intros u Hu; exact Hu|].
       exists (tn_state n). split; [exact Hs|]. fold p. congruence. }
  destruct (get_nodes _ _ _) as [nodes| | |]; cbn [bind]; try discriminate.
  destruct (best_parent _ _ _ _ _ _ _ _ _) as [[best path]| | |]; cbn [bind]; try discriminate.
  destruct (extend _ _ _ _ _ _ _) as [[t1 [k|]]| | |] eqn:Ee; cbn [bind]; try discriminate.
  destruct (extend_states _ _ _ _ _ _ _ _ _ D Ee) as (Inc & Hin).
  destruct (set_info t1 k (path, snd best)) as [t2| | |] eqn:Es; cbn [bind]; try discriminate.
  intros H. assert (t' = t2 /\ s = if issol (final p) then Some k else None) as (-> & ->) by (split; congruence).
  rewrite (set_info_states _ _ _ _ Es). split; [exact Inc|]. exists (tn_state n). split; [exact Hs|]. fold p.
  intros _. split; [exact Hin|]. intros ->. discriminate.
Qed.

(** The plane. *)
Local Open Scope R_scope.

Lemma cs2 a b c e : a * c + b * e <= sqrt (a * a + b * b) * sqrt (c * c + e * e).
Proof.
  rewrite <- sqrt_mult by (generalize (Rle_0_sqr a) (Rle_0_sqr b) (Rle_0_sqr c) (Rle_0_sqr e); unfold Rsqr; lra).
  apply Rle_trans with (Rabs (a * c + b * e)); [apply Rle_abs|].
  rewrite <- sqrt_Rsqr_abs. apply sqrt_le_1_alt. unfold Rsqr.
  generalize (Rle_0_sqr (a * e - b * c)). unfold Rsqr. lra.
Qed.

Lemma sq2_pos a b : 0 <= a * a + b * b.
Proof. generalize (Rle_0_sqr a) (Rle_0_sqr b). unfold Rsqr. lra. Qed.

Lemma minkowski a b c e : sqrt ((a + c) * (a + c) + (b + e) * (b + e)) <= sqrt (a * a + b * b) + sqrt (c * c + e * e).
Proof.
  apply Rsqr_incr_0_var; [|generalize (sqrt_pos (a * a + b * b)) (sqrt_pos (c * c + e * e)); lra].
  rewrite Rsqr_sqrt by apply sq2_pos.
  assert (X := Rsqr_sqrt _ (sq2_pos a b)). assert (Y := Rsqr_sqrt _ (sq2_pos c e)). assert (Z := cs2 a b c e).
  unfold Rsqr in *. nra.
Qed.

Lemma dist_tri a b c : distance a c <= distance a b + distance b c.
Proof.
  unfold distance.
  replace (fst c - fst a) with ((fst b - fst a) + (fst c - fst b)) by ring.
  replace (snd c - snd a) with ((snd b - snd a) + (snd c - snd b)) by ring. apply minkowski.
Qed.

(** Discs are convex. *)
Lemma disc_convex c a b rho s : 0 <= s <= 1 -> distance c a <= rho -> distance c b <= rho ->
  distance c (r_at (r_connect a b) s) <= rho.
Proof.
  intros Hs Ha Hb. unfold distance in *. unfold r_at, r_connect. cbn [r_init r_final fst snd].
  replace ((1 - s) * fst a + s * fst b - fst c) with ((1 - s) * (fst a - fst c) + s * (fst b - fst c)) by ring.
  replace ((1 - s) * snd a + s * snd b - snd c) with ((1 - s) * (snd a - snd c) + s * (snd b - snd c)) by ring.
  eapply Rle_trans; [apply minkowski|]. rewrite !sqrt_scale, !Rabs_pos_eq by lra.
  set (u := sqrt _) in *. set (w := sqrt _) in *. nra.
Qed.

Lemma steer_arrives d a q : distance a q <= d -> steer_r2 d a q = r_connect a q.
Proof.
  intros H. unfold steer_r2. change (r_length (r_connect a q)) with (distance a q).
  destruct (Rltb_spec 0 (distance a q)) as [L|L]; [|reflexivity].
  assert (X : 1 <= d / distance a q).
  { apply Rmult_le_reg_r with (distance a q); [exact L|]. unfold Rdiv. rewrite Rmult_assoc, Rinv_l; lra. }
  unfold clamp. destruct (Rltb_spec (d / distance a q) 0); [lra|].
  destruct (Rltb_spec 1 (d / distance a q)).
  - unfold r_truncate. rewrite r_at_1. unfold r_connect. cbn. f_equal. ring.
  - replace (d / distance a q) with 1 by lra. unfold r_truncate. rewrite r_at_1. unfold r_connect. cbn. f_equal. ring.
Qed.

Lemma exact_answers nearest : exact_nearest nearest -> answers nearest.
Proof. intros H it l q Hl. destruct (H it l q Hl) as (a & Ha & _). apply nth_error_Some. congruence. Qed.

Section Plane.
Variable free : point -> Prop.
Variable valid : rpath -> bool.
Variable sample : Z -> point.
Variable nearest : Z -> list point -> point -> nat.
Variables maxIteration maxNode : Z.
Variables d r : R.
Variable k : nat.
Variable c : nat -> point.
Variable hit : nat -> Z.
Hypothesis exact : exact_nearest nearest.
Hypothesis accepts : accepts_free free valid.
Hypothesis rd : 3 * r <= d.
Hypothesis route : clear_route free r k c.
Hypothesis Hits : hits sample r k c hit.
Hypothesis k_pos : (1 <= k)%nat.

Definition around (j : nat) (u : point) : Prop := distance (c j) u <= r.

(** The nearest point to the sample in the next disc is within reach, and the segment to the sample is free. *)
Lemma next_disc j it l a : (j < k)%nat -> (exists u, In u l /\ around j u) -> it = hit (S j) ->
  nth_error l (nearest it l (sample it)) = Some a ->
  steer_r2 d a (sample it) = r_connect a (sample it) /\ valid (r_connect a (sample it)) = true /\ around (S j) (sample it).
Proof.
  intros Hj (u & Hu & Nu) -> Ha. set (q := sample (hit (S j))) in *.
  assert (Hl : l <> []) by (intros ->; destruct Hu). destruct (exact (hit (S j)) l q Hl) as (a' & Ha' & Hmin).
  assert (a' = a) by congruence. subst a'. specialize (Hmin u Hu). destruct route as (R1 & R2). destruct Hits as (_ & _ & H3).
  assert (Q : distance (c (S j)) q <= r) by (apply H3; lia). specialize (R1 j Hj). unfold around in Nu.
  assert (T1 := dist_tri q (c j) u). assert (T2 := dist_tri q (c (S j)) (c j)).
  rewrite (distance_sym q (c (S j))) in T2. rewrite (distance_sym (c (S j)) (c j)) in T2.
  assert (T3 := dist_tri (c (S j)) q a).
  assert (Rp : 0 <= r) by (generalize (distance_pos (c (S j)) q); lra).
  split; [apply steer_arrives; rewrite distance_sym; lra|]. split; [|exact Q].
  apply accepts. intros s Hs. apply (R2 (S j)); [lia|]. apply disc_convex; [exact Hs|lra|lra].
Qed.

Variable goal : point.
Hypothesis budget : (hit k <= maxIteration < max_int)%Z.
Hypothesis nodes : (hit k + 1 <= maxNode)%Z.
Hypothesis r_pos : 0 <= r.

Lemma rrt_reaches : distance (c k) goal + r < 1 ->
  exists t s n, rrt_search point_eqb r_final (steer_r2 d) valid (near_goal goal) sample nearest maxIteration maxNode (c 0%nat) =
    Ok (true, t, s, n) /\ (n <= hit k + 1)%Z.
Proof.
  intros Hg. set (E := accepted r_final (steer_r2 d) valid). destruct Hits as (H1 & H2 & H3).
  apply (reach_search _ _ _ (twf E (c 0%nat)) k around hit); try assumption.
  - intros it t W.
    destruct (rrt_body_total point_eqb point_eqb_ok r_final (steer_r2 d) valid (near_goal goal) sample nearest maxIteration maxNode (c 0%nat) it t
      (exact_answers _ exact) W) as (t' & s & Eb & W' & L).
    exists t', s. split; [exact Eb|]. split; [exact W'|]. split; [exact L|].
    exact (proj1 (rrt_body_adds _ _ _ _ _ _ _ _ _ _ _ _ _ point_eqb_ok W Eb)).
  - intros j t t' s Hj W Hu Eb.
    destruct (rrt_body_adds _ _ _ _ _ _ _ _ _ _ _ _ _ point_eqb_ok W Eb) as (_ & a & Ha & X).
    destruct (next_disc j _ _ a Hj Hu eq_refl Ha) as (S1 & S2 & S3). rewrite S1 in X.
    destruct (X S2) as (X1 & X2). cbn [r_connect r_final] in X1, X2. split; [eauto|].
    intros Ek. apply X2. unfold near_goal. change (pnorm (psub ?a ?b)) with (distance b a).
    destruct (Rltb_spec (distance goal (sample (hit (S j)))) 1) as [_|L]; [reflexivity|]. exfalso.
    rewrite Ek in *. unfold around in S3. assert (T := dist_tri goal (c k) (sample (hit k))).
    rewrite (distance_sym goal (c k)) in T. lra.
  - apply (root_wf point_eqb point_eqb_ok None nearest).
  - unfold around. rewrite distance_self. exact r_pos.
Qed.

Lemma star_reaches log knn : answers_all knn -> sample (hit k) = goal ->
  exists t s n, star_search point_eqb r_final (steer_r2 d) valid (fun v => point_eqb v goal) sample nearest
      maxIteration maxNode r_connect r_length 0 Rplus Rltb log knn (c 0%nat) = Ok (true, t, s, n) /\ (n <= hit k + 1)%Z.
Proof.
  intros AA Hg. set (E := fun _ _ : point => True). destruct Hits as (H1 & H2 & H3).
  apply (reach_search _ _ _ (twf E (c 0%nat)) k around hit); try assumption.
  - intros it t W.
    destruct (star_body_total point_eqb point_eqb_ok r_final (steer_r2 d) valid (fun v => point_eqb v goal) sample nearest
      maxIteration maxNode r_connect r_length log knn (c 0%nat) it t (exact_answers _ exact) AA W) as (t' & s & Eb & W' & L & _).
    exists t', s. split; [exact Eb|]. split; [exact W'|]. split; [exact L|].
    exact (proj1 (star_body_adds _ _ _ _ _ _ _ _ _ _ _ _ _ _ _ _ _ point_eqb_ok W Eb)).
  - intros j t t' s Hj W Hu Eb.
    destruct (star_body_adds _ _ _ _ _ _ _ _ _ _ _ _ _ _ _ _ _ point_eqb_ok W Eb) as (_ & a & Ha & X).
    destruct (next_disc j _ _ a Hj Hu eq_refl Ha) as (S1 & S2 & S3). rewrite S1 in X.
    destruct (X S2) as (X1 & X2). cbn [r_connect r_final] in X1, X2. split; [eauto|].
    intros Ek. apply X2. rewrite Ek, Hg. apply point_eqb_ok. reflexivity.
  - apply (root_wf point_eqb point_eqb_ok (None, Some 0) nearest).
  - unfold around. rewrite distance_self. exact r_pos.
Qed.
End Plane.

(** Points along a curve. *)
Lemma route_along free L clearance curve d : 0 <= L -> 0 < clearance -> 0 < d -> clear_curve free L clearance curve ->
  exists r k c, 0 < r /\ 3 * r <= d /\ r < 1 /\ (1 <= k)%nat /\ c 0%nat = curve 0 /\ c k = curve L /\ clear_route free r k c.
Proof.
  intros HL Hc Hd (K1 & K2).
  set (r := Rmin (clearance / 4) (Rmin (d / 3) (1 / 2))).
  assert (R1 : r <= clearance / 4) by apply Rmin_l.
  assert (R2 : r <= d / 3) by (eapply Rle_trans; [apply Rmin_r|apply Rmin_l]).
  assert (R3 : r <= 1 / 2) by (eapply Rle_trans; [apply Rmin_r|apply Rmin_r]).
  assert (R0 : 0 < r) by (apply Rmin_pos; [lra|]; apply Rmin_pos; lra).
  set (k := S (Z.to_nat (up (L / r)))).
  assert (Hk : L <= INR k * r).
  { assert (A := archimed (L / r)). assert (P : 0 <= L / r) by (apply Rmult_le_pos; [exact HL|left; apply Rinv_0_lt_compat, R0]).
    assert (U : (0 <= up (L / r))%Z) by (apply le_IZR; lra).
    assert (I : L / r <= INR k).
    { unfold k. rewrite S_INR, INR_IZR_INZ, Z2Nat.id by exact U. lra. }
    replace L with (L / r * r) by (field; lra). apply Rmult_le_compat_r; lra. }
  exists r, k, (fun j => curve (Rmin L (INR j * r))).
  assert (In : forall j, 0 <= Rmin L (INR j * r) <= L).
  { intros j. split; [|apply Rmin_l]. apply Rmin_glb; [exact HL|]. apply Rmult_le_pos; [apply pos_INR|lra]. }
  split; [exact R0|]. split; [lra|]. split; [lra|]. split; [lia|]. split; [|split; [|split]].
  - f_equal. cbn [INR]. rewrite Rmult_0_l. apply Rmin_right, HL.
  - f_equal. apply Rmin_left, Hk.
  - intros j _. eapply Rle_trans; [apply K1; apply In|]. rewrite S_INR.
    unfold Rmin. destruct (Rle_dec L (INR j * r)), (Rle_dec L ((INR j + 1) * r)); unfold Rabs; destruct Rcase_abs; lra.
  - intros j p _ Hp. apply (K2 (Rmin L (INR j * r))); [apply In|lra].
Qed.
