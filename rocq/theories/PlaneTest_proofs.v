(** Proofs about the plane of the unit test of A*. *)
From Coq Require Import Reals Lra.
From Verif Require Import Base RealBase Frontier_model Frontier_spec AStar_model AStar_spec AStar_proofs
  AStar_opt_proofs Heuristic_proofs AStarInf_spec AStarInf_proofs PlaneTest_model.
Local Open Scope R_scope.

Lemma pt_eq : decides_eq pt_eqb.
Proof.
  intros [a b] [c d]. unfold pt_eqb. cbn [fst snd]. rewrite andb_true_iff, !Z.eqb_eq. split; [intros []; congruence|].
  intros H. injection H. auto.
Qed.
Lemma plane_det : deterministic plane_succ plane_nb.
Proof. intros p s. reflexivity. Qed.

Lemma sqrt2_bounds : 1 < sqrt 2 < 2.
Proof.
  split.
  - rewrite <- sqrt_1 at 1. apply sqrt_lt_1; lra.
  - replace 2 with (sqrt (2 * 2)) at 2 by (rewrite sqrt_square; lra). apply sqrt_lt_1; lra.
Qed.

(** A step moves each coordinate by at most one and costs its length. *)
Lemma plane_step s a c t : trans plane_succ s a c t -> exists i j,
  t = (fst s + i, snd s + j)%Z /\ (-1 <= i <= 1)%Z /\ (-1 <= j <= 1)%Z /\ (i <> 0 \/ j <> 0)%Z /\
  c = (if (i =? 0)%Z || (j =? 0)%Z then 1 else sqrt 2).
Proof.
  intros [p H]. destruct s as [x y]. cbn [plane_succ plane_nb fst snd] in *.
  repeat (destruct H as [H|H]; [injection H as <- <- <-|]); [..|contradiction].
  - exists 1%Z, 1%Z. repeat split; auto; lia.
  - exists 1%Z, 0%Z. rewrite Z.add_0_r. repeat split; auto; lia.
  - exists 1%Z, (-1)%Z. repeat split; auto; lia.
  - exists 0%Z, (-1)%Z. rewrite Z.add_0_r. repeat split; auto; lia.
  - exists (-1)%Z, (-1)%Z. repeat split; auto; lia.
  - exists (-1)%Z, 0%Z. rewrite Z.add_0_r. repeat split; auto; lia.
  - exists (-1)%Z, 1%Z. repeat split; auto; lia.
  - exists 0%Z, 1%Z. rewrite Z.add_0_r. repeat split; auto; lia.
Qed.

Lemma plane_steps : steps_cost_at_least plane_succ 1.
Proof.
  intros s a c t H. apply plane_step in H as (i & j & _ & _ & _ & _ & ->). pose proof sqrt2_bounds.
  destruct ((i =? 0)%Z || (j =? 0)%Z); lra.
Qed.

(** The cost of the cheapest way without obstacles. *)
Definition octile (d : Z * Z) : R :=
  let k := sqrt 2 - 1 in
  Rmax (IZR (Z.abs (fst d)) + k * IZR (Z.abs (snd d))) (IZR (Z.abs (snd d)) + k * IZR (Z.abs (fst d))).
Definition away (goal s : point2i) : Z * Z := (fst s - fst goal, snd s - snd goal)%Z.

Lemma octile_step goal s a c t : trans plane_succ s a c t -> octile (away goal s) <= c + octile (away goal t).
Proof.
  intros H. apply plane_step in H as (i & j & -> & Hi & Hj & Hij & ->). unfold octile, away. cbn [fst snd].
  set (k := sqrt 2 - 1). assert (Hk : 0 < k < 1) by (pose proof sqrt2_bounds; unfold k; lra).
  assert (Hc : (if (i =? 0)%Z || (j =? 0)%Z then 1 else sqrt 2) = (if (i =? 0)%Z || (j =? 0)%Z then 1 else 1 + k))
    by (unfold k; destruct ((i =? 0)%Z || (j =? 0)%Z); lra).
  rewrite Hc. clearbody k. clear Hc.
  set (x := (fst s - fst goal)%Z). set (y := (snd s - snd goal)%Z).
  replace (fst s + i - fst goal)%Z with (x + i)%Z by (unfold x; lia).
  replace (snd s + j - snd goal)%Z with (y + j)%Z by (unfold y; lia). clearbody x y.
  assert (Hx : IZR (Z.abs x) <= IZR (Z.abs (x + i)) + IZR (Z.abs i)) by (rewrite <- plus_IZR; apply IZR_le; lia).
  assert (Hy : IZR (Z.abs y) <= IZR (Z.abs (y + j)) + IZR (Z.abs j)) by (rewrite <- plus_IZR; apply IZR_le; lia).
  set (X := IZR (Z.abs x)) in *. set (X' := IZR (Z.abs (x + i))) in *. set (Y := IZR (Z.abs y)) in *.
  set (Y' := IZR (Z.abs (y + j))) in *.
  assert (HkX : k * X <= k * (X' + IZR (Z.abs i))) by (apply Rmult_le_compat_l; lra).
  assert (HkY : k * Y <= k * (Y' + IZR (Z.abs j))) by (apply Rmult_le_compat_l; lra).
  assert (Hcase : (IZR (Z.abs i) = 0 /\ IZR (Z.abs j) = 1 /\ (i =? 0)%Z || (j =? 0)%Z = true) \/
                  (IZR (Z.abs i) = 1 /\ IZR (Z.abs j) = 0 /\ (i =? 0)%Z || (j =? 0)%Z = true) \/
                  (IZR (Z.abs i) = 1 /\ IZR (Z.abs j) = 1 /\ (i =? 0)%Z || (j =? 0)%Z = false)).
  { assert (Hi' : (i = -1 \/ i = 0 \/ i = 1)%Z) by lia. assert (Hj' : (j = -1 \/ j = 0 \/ j = 1)%Z) by lia.
    destruct Hi' as [->|[->| ->]], Hj' as [->|[->| ->]]; cbn; auto; lia. }
  pose proof (Rmax_l (X' + k * Y') (Y' + k * X')). pose proof (Rmax_r (X' + k * Y') (Y' + k * X')).
  destruct Hcase as [(Ei & Ej & ->)|[(Ei & Ej & ->)|(Ei & Ej & ->)]]; rewrite Ei, Ej in *; apply Rmax_lub; lra.
Qed.

Lemma octile_path l : forall s goal g, is_path plane_succ s l goal -> g + octile (away goal s) <= path_cost Rplus g l.
Proof.
  induction l as [|x l IH]; intros s goal g Hl; cbn [is_path] in Hl.
  - subst. unfold octile, away. rewrite !Z.sub_diag. cbn. rewrite Rmax_left; lra.
  - destruct Hl as [Htr Hl]. pose proof (octile_step goal _ _ _ _ Htr) as Ho. specialize (IH _ _ (g + step_cost x) Hl).
    change (path_cost Rplus g (x :: l)) with (path_cost Rplus (g + step_cost x) l). lra.
Qed.

(** A step towards the goal. *)
Lemma plane_trans x y i j : (-1 <= i <= 1)%Z -> (-1 <= j <= 1)%Z -> (i <> 0 \/ j <> 0)%Z ->
  trans plane_succ (x, y) tt (if (i =? 0)%Z || (j =? 0)%Z then 1 else sqrt 2) (x + i, y + j)%Z.
Proof.
  intros Hi Hj Hij. exists tt. cbn [plane_succ plane_nb fst].
  assert (Hi' : (i = -1 \/ i = 0 \/ i = 1)%Z) by lia. assert (Hj' : (j = -1 \/ j = 0 \/ j = 1)%Z) by lia.
  destruct Hi' as [->|[->| ->]], Hj' as [->|[->| ->]]; cbn [Z.eqb orb]; rewrite ?Z.add_0_r; cbn; auto 10; lia.
Qed.

Lemma octile_towards (x y : Z) : x <> 0%Z \/ y <> 0%Z ->
  octile (x, y) = (if (Z.sgn x =? 0)%Z || (Z.sgn y =? 0)%Z then 1 else sqrt 2) + octile (x - Z.sgn x, y - Z.sgn y)%Z.
Proof.
  intros Hxy. unfold octile. cbn [fst snd].
  set (k := sqrt 2 - 1). assert (Hk : 0 < k < 1) by (pose proof sqrt2_bounds; unfold k; lra).
  assert (Hc : (if (Z.sgn x =? 0)%Z || (Z.sgn y =? 0)%Z then 1 else sqrt 2) =
               (if (Z.sgn x =? 0)%Z || (Z.sgn y =? 0)%Z then 1 else 1 + k))
    by (unfold k; destruct ((Z.sgn x =? 0)%Z || (Z.sgn y =? 0)%Z); lra).
  rewrite Hc. clearbody k. clear Hc.
  assert (Ex : Z.abs (x - Z.sgn x) = (Z.abs x - Z.abs (Z.sgn x))%Z) by lia.
  assert (Ey : Z.abs (y - Z.sgn y) = (Z.abs y - Z.abs (Z.sgn y))%Z) by lia.
  rewrite Ex, Ey, !minus_IZR.
  assert (Hcase : (Z.abs x = 0 /\ Z.abs (Z.sgn x) = 0 /\ 1 <= Z.abs y /\ Z.abs (Z.sgn y) = 1 /\
                   (Z.sgn x =? 0) || (Z.sgn y =? 0) = true \/
                   Z.abs y = 0 /\ Z.abs (Z.sgn y) = 0 /\ 1 <= Z.abs x /\ Z.abs (Z.sgn x) = 1 /\
                   (Z.sgn x =? 0) || (Z.sgn y =? 0) = true \/
                   Z.abs (Z.sgn x) = 1 /\ Z.abs (Z.sgn y) = 1 /\ (Z.sgn x =? 0) || (Z.sgn y =? 0) = false)%Z).
  { destruct (Z.eq_dec x 0) as [->|Hx]; [|destruct (Z.eq_dec y 0) as [->|Hy]].
    - left. destruct y; cbn; lia.
    - right. left. destruct x; cbn; lia.
    - right. right. destruct x, y; cbn; lia. }
  destruct Hcase as [(E1 & E2 & E3 & E4 & ->)|[(E1 & E2 & E3 & E4 & ->)|(E1 & E2 & ->)]].
  - rewrite E1, E2, E4. apply IZR_le in E3. set (Y := IZR (Z.abs y)) in *. clearbody Y.
    rewrite !Rmax_right; [lra| |].
    + assert (k * (Y - 1) <= 1 * (Y - 1)) by (apply Rmult_le_compat_r; lra). lra.
    + assert (k * Y <= 1 * Y) by (apply Rmult_le_compat_r; lra). lra.
  - rewrite E1, E2, E4. apply IZR_le in E3. set (X := IZR (Z.abs x)) in *. clearbody X.
    rewrite !Rmax_left; [lra| |].
    + assert (k * (X - 1) <= 1 * (X - 1)) by (apply Rmult_le_compat_r; lra). lra.
    + assert (k * X <= 1 * X) by (apply Rmult_le_compat_r; lra). lra.
  - rewrite E1, E2. set (X := IZR (Z.abs x)). set (Y := IZR (Z.abs y)). clearbody X Y.
    replace (X - 1 + k * (Y - 1)) with (X + k * Y - (1 + k)) by lra.
    replace (Y - 1 + k * (X - 1)) with (Y + k * X - (1 + k)) by lra.
    unfold Rmax. destruct (Rle_dec (X + k * Y) (Y + k * X)), (Rle_dec (X + k * Y - (1 + k)) (Y + k * X - (1 + k))); lra.
Qed.

Lemma plane_way (goal : point2i) m : forall s, (Z.max (Z.abs (fst s - fst goal)) (Z.abs (snd s - snd goal)) <= Z.of_nat m)%Z ->
  exists l, is_path plane_succ s l goal /\ forall g, path_cost Rplus g l = g + octile (away goal s).
Proof.
  induction m as [|m IH]; intros [x y] Hm; cbn [fst snd] in Hm.
  - exists []. destruct goal as [u v]. cbn [fst snd] in Hm. assert (x = u) as -> by lia. assert (y = v) as -> by lia.
    split; [reflexivity|]. intros g. unfold octile, away. cbn [fst snd]. rewrite !Z.sub_diag. cbn. rewrite Rmax_left; lra.
  - destruct goal as [u v]. cbn [fst snd] in Hm.
    destruct (Z.eq_dec x u) as [Ex|Ex]; [destruct (Z.eq_dec y v) as [Ey|Ey]|].
    { apply IH. cbn [fst snd]. lia. }
    all: set (i := (- Z.sgn (x - u))%Z); set (j := (- Z.sgn (y - v))%Z);
      destruct (IH (x + i, y + j)%Z) as (l & Hl & Hc); [cbn [fst snd]; unfold i, j; lia|];
      exists ((tt, (if (i =? 0)%Z || (j =? 0)%Z then 1 else sqrt 2), (x + i, y + j)%Z) :: l);
      split; [split; [apply plane_trans; unfold i, j; lia|exact Hl]|];
      intros g; pose proof (octile_towards (x - u) (y - v) ltac:(lia)) as Ho;
      change (path_cost Rplus g ((tt, (if (i =? 0)%Z || (j =? 0)%Z then 1 else sqrt 2), (x + i, y + j)%Z) :: l))
        with (path_cost Rplus (g + (if (i =? 0)%Z || (j =? 0)%Z then 1 else sqrt 2)) l);
      rewrite Hc; unfold away; cbn [fst snd];
      replace (x + i - u)%Z with (x - u - Z.sgn (x - u))%Z by (unfold i; lia);
      replace (y + j - v)%Z with (y - v - Z.sgn (y - v))%Z by (unfold j; lia);
      assert (Eij : ((i =? 0)%Z || (j =? 0)%Z) = ((Z.sgn (x - u) =? 0)%Z || (Z.sgn (y - v) =? 0)%Z))
        by (unfold i, j; destruct (Z.sgn (x - u)), (Z.sgn (y - v)); reflexivity);
      rewrite Eij, Ho; lra.
Qed.

Lemma plane_h_step goal s a c t : trans plane_succ s a c t -> plane_h goal s - plane_h goal t <= c.
Proof.
  intros H. apply plane_step in H as (i & j & -> & Hi & Hj & Hij & Hc).
  assert (Hlen : sqrt (Rsqr (IZR i) + Rsqr (IZR j)) = c).
  { rewrite Hc. assert (Hi' : (i = -1 \/ i = 0 \/ i = 1)%Z) by lia. assert (Hj' : (j = -1 \/ j = 0 \/ j = 1)%Z) by lia.
    destruct Hi' as [->|[->| ->]], Hj' as [->|[->| ->]]; cbn [Z.eqb orb]; try lia; unfold Rsqr;
      match goal with
      | |- sqrt ?e = 1 => replace e with 1 by lra; apply sqrt_1
      | |- sqrt ?e = sqrt 2 => f_equal; lra
      end. }
  pose proof (triangle (IZR (fst s)) (IZR (snd s)) (IZR (fst goal)) (IZR (snd goal))
                       (IZR (fst s + i)) (IZR (snd s + j))) as Ht.
  unfold dist_euc in Ht. unfold plane_h. cbn [fst snd]. rewrite !minus_IZR, !plus_IZR in *.
  rewrite <- !Rsqr_pow2. rewrite <- Hlen.
  replace (Rsqr (IZR i) + Rsqr (IZR j))
    with (Rsqr (IZR (fst s) - (IZR (fst s) + IZR i)) + Rsqr (IZR (snd s) - (IZR (snd s) + IZR j))) by (unfold Rsqr; lra).
  lra.
Qed.

Lemma plane_h_pos goal s : 0 <= plane_h goal s.
Proof. apply sqrt_pos. Qed.

Lemma plane_found start goal : exists fuel0, forall fuel, (fuel0 <= fuel)%nat -> exists n st,
  plane_search fuel start goal = Ok (Some n, st) /\ n_state n = goal /\ n_g 0 n = octile (away goal start).
Proof.
  destruct (plane_way goal (Z.to_nat (Z.max (Z.abs (fst start - fst goal)) (Z.abs (snd start - snd goal)))) start) as (l & Hl & Hc); [lia|].
  destruct (grow_search pt_eqb Rltb Rplus 0 (plane_h goal) plane_succ (fun s => pt_eqb s goal) (fun _ _ => true) true plane_nb
              pt_eq R_cost_laws plane_det start
              (real_grow (plane_h goal) plane_succ 1 Rlt_0_1 plane_steps (plane_h_pos goal) start) tt l goal Hl)
    as (f0 & Hf); [now apply pt_eq|].
  exists f0. intros fuel Hfuel. destruct (Hf fuel Hfuel) as (n & st & H). exists n, st. split; [exact H|].
  assert (Hs : n_state n = goal).
  { apply search_chain in H; [|apply (decides_eq_equiv _ pt_eq)|apply (cost_laws_swo _ _ R_cost_laws)].
    destruct H as [_ H]. now apply pt_eq. }
  split; auto. apply Rle_antisym.
  - pose proof (search_optimal pt_eqb Rltb Rplus 0 (plane_h goal) plane_succ (fun s => pt_eqb s goal) plane_nb pt_eq R_cost_laws plane_det
      (R_consistent plane_succ (plane_h goal) (plane_h_step goal)) (R_cancellable _) fuel start tt n st H l) as Hopt.
    rewrite Hs in Hopt. specialize (Hopt Hl). apply leb_R in Hopt. rewrite Hc in Hopt. lra.
  - apply search_sound with (dflt := tt) in H; [|apply (decides_eq_equiv _ pt_eq)|apply (cost_laws_swo _ _ R_cost_laws)].
    destruct H as (l' & Hl' & _ & _ & _ & Hg). cbn [get_optimal_cost] in Hg. injection Hg as ->. rewrite Hs in Hl'.
    pose proof (octile_path l' start goal 0 Hl'). lra.
Qed.
